(** * Properties C38 and C39: column reduction, image and kernel *)
From Verif Require Import Base Basis_model PH_model IK_model Spec_PH Spec_IK IK_props.
From Coq Require Import Sorted Znumtheory.
Local Open Scope Z_scope.

(** ** C38: [pivot_check_reduce].  It ends within the fuel given to it everywhere in the model, adds to the column of M
    and to that of T the same combination of earlier columns which have a pivot, and ends with a zero active part and
    -1, or with the last nonzero active row, which is not a pivot of an earlier column. *)
Theorem C38_pivot_check_reduce : forall p m n act prev r t,
  prime p -> StronglySorted lt act -> (forall i, In i act -> (i < m)%nat) ->
  prev_ok p act m n prev -> length r = m -> length t = n -> (forall i, 0 <= vget r i) -> (forall i, 0 <= vget t i) ->
  exists r' t' piv c, pivot_check_reduce (pcr_fuel act p) act prev r t p = Ok (r', t', piv) /\
    length r' = m /\ length t' = n /\
    (forall k, (k < length prev)%nat -> c k <> 0 -> 0 <= snd (nth k prev ([], [], 0))) /\
    (forall i, vget r' i mod p = (vget r i + Zsum (length prev) (fun k => c k * vget (fst (fst (nth k prev ([], [], 0)))) i)) mod p) /\
    (forall i, vget t' i mod p = (vget t i + Zsum (length prev) (fun k => c k * vget (snd (fst (nth k prev ([], [], 0)))) i)) mod p) /\
    (piv = -1 <-> forall i, In i act -> vget r' i mod p = 0) /\
    (piv <> -1 -> exists q, piv = Z.of_nat q /\ last_on p act (vget r') q /\ forall k, In k prev -> snd k <> piv).
Proof. exact pcr_aux. Qed.
Print Assumptions C38_pivot_check_reduce.

(** Two earlier columns with pivots 3 and 1; row 2 is not active. *)
Example C38_case : prev_ok 5 [0; 1; 3]%nat 4 2 [([1; 0; 2; 3], [1; 0], 3); ([2; 2; 1; 0], [0; 1], 1)] /\
  pivot_check_reduce (pcr_fuel [0; 1; 3]%nat 5) [0; 1; 3]%nat [([1; 0; 2; 3], [1; 0], 3); ([2; 2; 1; 0], [0; 1], 1)] [0; 1; 1; 1] [0; 0] 5
    = Ok ([2; 0; 4; 0], [3; 2], 0).
Proof.
  split; [|vm_compute; reflexivity].
  intros r t q [H|[H|[]]]; injection H as <- <- <-.
  - split; [reflexivity|]. split; [reflexivity|].
    split; [intros [|[|[|[|[|i]]]]]; cbn; lia|]. split; [intros [|[|[|i]]]; cbn; lia|].
    intros _. split; [right; right; left; reflexivity|]. split; [vm_compute; discriminate|]. intros i [<-|[<-|[<-|[]]]] Hi; cbn in Hi; lia.
  - split; [reflexivity|]. split; [reflexivity|].
    split; [intros [|[|[|[|[|i]]]]]; cbn; lia|]. split; [intros [|[|[|i]]]; cbn; lia|].
    intros _. split; [right; left; reflexivity|]. split; [vm_compute; discriminate|]. intros i [<-|[<-|[<-|[]]]] Hi; cbn in Hi; try lia. reflexivity.
Qed.

(** ** C39: [image_kernel] *)

(** On a morphism given by a matrix without negative entries and a domain which is not zero the function returns
    bases over the codomain and the domain; no reduction runs out of fuel and no exception is raised. *)
Theorem C39_no_failure : forall rnd p A B F, ik_input rnd p A B F ->
  exists Im Ker Pre, image_kernel rnd A B F p 0 = Ok (Im, Some Ker, Pre) /\
    over Im B /\ over Ker A /\ nrows Pre = b_dim A /\ ncols Pre = b_dim Im.
Proof. exact ik_total_aux. Qed.
Print Assumptions C39_no_failure.

(** The kernel bars alive at [r] are a basis of the kernel at [r]. *)
Theorem C39_kernel : forall rnd p A B F, ik_input rnd p A B F ->
  forall Im Ker Pre, image_kernel rnd A B F p 0 = Ok (Im, Some Ker, Pre) ->
  forall r, quotient_basis p (ker_at p (b_bars A) (b_bars B) F r) (null_at p (b_bars A) r)
    (b_dim Ker) (column (b_coords Ker)) (fun k => living (b_bars Ker) r k = true).
Proof. exact ik_kernel_aux. Qed.
Print Assumptions C39_kernel.

(** The image bars alive at [r] whose coordinates are not zero at [r] are a basis of the image at [r].  Missing: the
    bars whose coordinates became zero should have ended. *)
Theorem C39_image_partial : forall rnd p A B F, ik_input rnd p A B F ->
  forall Im Ker Pre, image_kernel rnd A B F p 0 = Ok (Im, Some Ker, Pre) ->
  forall r, quotient_basis p (im_at p (b_bars A) (b_bars B) F r) (null_at p (b_bars B) r)
    (b_dim Im) (column (b_coords Im)) (fun k => living (b_bars Im) r k = true /\ ~ null_at p (b_bars B) r (column (b_coords Im) k)).
Proof. exact ik_image_aux. Qed.
Print Assumptions C39_image_partial.

(** From its birth on an image generator lies in the image. *)
Theorem C39_image_born : forall rnd p A B F, ik_input rnd p A B F ->
  forall Im Ker Pre, image_kernel rnd A B F p 0 = Ok (Im, Some Ker, Pre) ->
  forall k r, (k < b_dim Im)%nat -> fst (nth k (b_bars Im) (0, 0)) <= r ->
    im_at p (b_bars A) (b_bars B) F r (column (b_coords Im) k).
Proof. exact ik_image_born_aux. Qed.
Print Assumptions C39_image_born.

(** The whole property under the hypothesis that no generator of the domain dies while another lives on. *)
Theorem C39_calm_partial : forall rnd p A B F, ik_input rnd p A B F ->
  forall Im Ker Pre, image_kernel rnd A B F p 0 = Ok (Im, Some Ker, Pre) -> calm_bars (b_bars A) ->
  (forall r, quotient_basis p (im_at p (b_bars A) (b_bars B) F r) (null_at p (b_bars B) r)
     (b_dim Im) (column (b_coords Im)) (fun k => living (b_bars Im) r k = true)) /\
  (forall k i, (k < b_dim Im)%nat -> (i < b_dim B)%nat ->
     mapply F (column Pre k) i mod p = column (b_coords Im) k i mod p).
Proof. exact ik_calm_aux. Qed.
Print Assumptions C39_calm_partial.

(** Without it the image bars can outlive the image (image_kernel.py:181 overwrites the death of an image bar which
    already ended), *)
Theorem C39_image_refuted : exists rnd p A B F, ik_input rnd p A B F /\
  exists Im Ker Pre r k, image_kernel rnd A B F p 0 = Ok (Im, Some Ker, Pre) /\
    (k < b_dim Im)%nat /\ living (b_bars Im) r k = true /\ null_at p (b_bars B) r (column (b_coords Im) k) /\
    ~ quotient_basis p (im_at p (b_bars A) (b_bars B) F r) (null_at p (b_bars B) r) (b_dim Im) (column (b_coords Im))
        (fun k => living (b_bars Im) r k = true).
Proof. exact ik_image_refuted_aux. Qed.
Print Assumptions C39_image_refuted.

(** and a preimage need not be mapped to its image generator, not even at a radius at which the bar lives
    (image_kernel.py:192-193 replaces only the entries of the generators which live on). *)
Theorem C39_preimage_refuted : exists rnd p A B F, ik_input rnd p A B F /\
  exists Im Ker Pre r k, image_kernel rnd A B F p 0 = Ok (Im, Some Ker, Pre) /\
    (k < b_dim Im)%nat /\ living (b_bars Im) r k = true /\
    ~ null_at p (b_bars B) r (fun i => mapply F (column Pre k) i - column (b_coords Im) k i) /\
    ~ null_at p (b_bars B) r (fun i => mapply F (restr (b_bars A) r (column Pre k)) i - column (b_coords Im) k i).
Proof. exact ik_preimage_refuted_aux. Qed.
Print Assumptions C39_preimage_refuted.

(** A negative entry can raise [ValueError]. *)
Theorem C39_negative_refuted : exists p A B F, prime p /\ bars_ok A /\ bars_ok B /\ b_brk B = None /\ b_dim B = nrows F /\
  b_dim A = ncols F /\ wf_mat F /\ morphism p (b_bars A) (b_bars B) F /\ dom_ok (fun x => x) A /\
  image_kernel (fun x => x) A B F p 0 = Err ValueError.
Proof. exact ik_negative_refuted_aux. Qed.
Print Assumptions C39_negative_refuted.

(** An empty domain raises [IndexError]. *)
Theorem C39_empty_refuted : exists p B F, prime p /\ bars_ok B /\ b_dim B = nrows F /\ ncols F = 0%nat /\
  image_kernel (fun x => x) empty_basis B F p 0 = Err IndexError.
Proof. exact ik_empty_refuted_aux. Qed.
Print Assumptions C39_empty_refuted.

(** Sizes which do not fit raise [ValueError]. *)
Theorem C39_sizes : forall rnd p A B F s, b_dim B <> nrows F \/ b_dim A <> ncols F -> image_kernel rnd A B F p s = Err ValueError.
Proof. exact ik_sizes_aux. Qed.
Print Assumptions C39_sizes.

(** A case with unsorted bars on both sides meeting every hypothesis, [calm_bars] included. *)
Example C39_case : ik_input (fun x => x) 5 (plain [(2, 9); (1, 9); (1, 9)]) (plain [(1, 6); (0, 8); (0, 4)]) (Mat 3 [[2; 1; 0]; [0; 3; 1]; [1; 3; 1]]) /\
  calm_bars [(2, 9); (1, 9); (1, 9)] /\
  match image_kernel (fun x => x) (plain [(2, 9); (1, 9); (1, 9)]) (plain [(1, 6); (0, 8); (0, 4)]) (Mat 3 [[2; 1; 0]; [0; 3; 1]; [1; 3; 1]]) 5 0 with
  | Ok (Im, Some Ker, Pre) => (b_bars Im, cols (b_coords Im), (b_bars Ker, cols (b_coords Ker)), cols Pre) =
      ([(1, 8); (1, 6); (2, 4)], [[0; 3; 1]; [1; 0; 0]; [0; 0; 3]],
       ([(4, 9); (6, 9); (8, 9)], [[1; 0; 3]; [0; 4; 1]; [0; 1; 0]]), [[0; 1; 0]; [0; 4; 1]; [1; 0; 3]])
  | _ => False
  end.
Proof.
  split; [apply ik_plain; try reflexivity; [apply prime_5|cbn; lia]|]. split; [|vm_compute; reflexivity].
  intros x y [<-|[<-|[<-|[]]]] [<-|[<-|[<-|[]]]]; cbn; lia.
Qed.
