(** * Properties C43-C47 and C53: the 0 page, the Cech differential, the lifts and the first page *)
From Verif Require Import Base Basis_model PH_model Simp_model Spec_Simp Simp_props Spec_PH Spec_Rips LC_model Spec_LC SS_model Spec_SS SS_props.
From Coq Require Import Sorted Znumtheory.
Local Open Scope Z_scope.

(** ** The 0 page: it is always computed; over each simplex of the nerve it holds the simplices of the Rips complex
    on the points there, and bases of their homology at each radius. *)
Theorem zero_page_no_failure : forall argsort rnd Dist max_r max_dim p IN n0 nerve,
  mv_input argsort Dist max_r max_dim p IN n0 nerve ->
  exists S, zero_page argsort rnd Dist max_r max_dim p IN n0 nerve = Ok S.
Proof. exact zero_page_total_aux. Qed.
Print Assumptions zero_page_no_failure.

Theorem zero_page_local_homology : forall argsort rnd Dist max_r max_dim p IN n0 nerve,
  mv_input argsort Dist max_r max_dim p IN n0 nerve ->
  forall S, zero_page argsort rnd Dist max_r max_dim p IN n0 nerve = Ok S ->
  forall n k, (n < length nerve)%nat -> (k < length (level n0 nerve n))%nat ->
  (forall d, (d <= Z.to_nat max_dim)%nat -> NoDup (simplices IN S n k d) /\
     forall T, In T (simplices IN S n k d) <-> clique (length Dist) (near Dist max_r) d T /\ incl T (ins_of IN n k)) /\
  forall d r, (d < Z.to_nat max_dim)%nat -> r < max_r ->
    quotient_basis p (local_cycle p Dist IN S n d k r) (local_bounds p Dist IN S n d k r)
      (length (b_bars (hom_of S n k d))) (colv (b_coords (hom_of S n k d)))
      (fun h => bbirth (b_bars (hom_of S n k d)) h <= r < bdeath (b_bars (hom_of S n k d)) h).
Proof. exact zero_page_aux. Qed.
Print Assumptions zero_page_local_homology.

(** ** What the Cech differential computes *)
Theorem cech_diff_formula : forall argsort rnd Dist max_r max_dim p IN n0 nerve,
  mv_input argsort Dist max_r max_dim p IN n0 nerve ->
  forall S, zero_page argsort rnd Dist max_r max_dim p IN n0 nerve = Ok S ->
  forall n deg start, (Datatypes.S n < length nerve)%nat -> (deg <= Z.to_nat max_dim)%nat -> has_cofaces n0 nerve n ->
  good (sizes IN n0 nerve S (Datatypes.S n) deg) start ->
  exists c, cech_diff S n deg start = Ok c /\ good (sizes IN n0 nerve S n deg) c /\
    forall k g j, (k < length (level n0 nerve n))%nat ->
      value c k g j mod p = cech_image n0 nerve IN S n deg k (fun s => value start s g) j mod p.
Proof. exact cech_total_aux. Qed.
Print Assumptions cech_diff_formula.

(** A simplex of the nerve without cofaces makes the code raise [IndexError]. *)
Theorem cech_diff_no_coface : forall argsort rnd Dist max_r max_dim p IN n0 nerve,
  mv_input argsort Dist max_r max_dim p IN n0 nerve ->
  forall S, zero_page argsort rnd Dist max_r max_dim p IN n0 nerve = Ok S ->
  forall n deg start t, (Datatypes.S n < length nerve)%nat -> In t (level n0 nerve n) ->
  (forall s k, In s (level n0 nerve (Datatypes.S n)) -> (k <= Datatypes.S n)%nat -> t <> facet k s) ->
  forall k, nth k (level n0 nerve n) [] = t -> (k < length (level n0 nerve n))%nat ->
  cech_diff_local S start n deg k = Err IndexError.
Proof. exact no_coface_aux. Qed.
Print Assumptions cech_diff_no_coface.

(** ** C43 *)
Theorem C43_cech_square_zero : forall argsort rnd Dist max_r max_dim p IN n0 nerve,
  mv_input argsort Dist max_r max_dim p IN n0 nerve ->
  forall S, zero_page argsort rnd Dist max_r max_dim p IN n0 nerve = Ok S ->
  forall n deg start, (Datatypes.S (Datatypes.S n) < length nerve)%nat -> (deg <= Z.to_nat max_dim)%nat ->
  has_cofaces n0 nerve n -> has_cofaces n0 nerve (Datatypes.S n) ->
  good (sizes IN n0 nerve S (Datatypes.S (Datatypes.S n)) deg) start ->
  exists c c', cech_diff S (Datatypes.S n) deg start = Ok c /\ cech_diff S n deg c = Ok c' /\
    forall k g j, value c' k g j mod p = 0.
Proof. exact C43_aux. Qed.
Print Assumptions C43_cech_square_zero.

(** ** C44 *)
Theorem C44_cech_vertical_anticommute : forall argsort rnd Dist max_r max_dim p IN n0 nerve,
  mv_input argsort Dist max_r max_dim p IN n0 nerve ->
  forall S, zero_page argsort rnd Dist max_r max_dim p IN n0 nerve = Ok S ->
  forall n deg c c', (Datatypes.S n < length nerve)%nat -> (deg < Z.to_nat max_dim)%nat -> has_cofaces n0 nerve n ->
  good (sizes IN n0 nerve S (Datatypes.S n) (Datatypes.S deg)) c -> good (sizes IN n0 nerve S (Datatypes.S n) deg) c' ->
  (forall s g j, (s < length (level n0 nerve (Datatypes.S n)))%nat ->
     value c' s g j mod p = local_bd IN S (Datatypes.S n) deg s (value c s g) j mod p) ->
  exists d d', cech_diff S n (Datatypes.S deg) c = Ok d /\ cech_diff S n deg c' = Ok d' /\
  forall k g j, (k < length (level n0 nerve n))%nat -> (local_bd IN S n deg k (value d k g) j + value d' k g j) mod p = 0.
Proof. exact C44_aux. Qed.
Print Assumptions C44_cech_vertical_anticommute.

(** ** C45 *)
Theorem C45_lift_total : forall argsort rnd Dist max_r max_dim p IN n0 nerve,
  mv_input argsort Dist max_r max_dim p IN n0 nerve ->
  forall S, zero_page argsort rnd Dist max_r max_dim p IN n0 nerve = Ok S ->
  forall n k deg rows radii, (n < length nerve)%nat -> (k < length (level n0 nerve n))%nat -> (deg <= Z.to_nat max_dim)%nat ->
  Forall (fun v => length v = length (simplices IN S n k deg)) rows -> length radii = length rows ->
  (forall g, (g < length rows)%nat -> nth g radii 0 < max_r /\ local_cycle p Dist IN S n deg k (nth g radii 0) (vget (nth g rows []))) ->
  exists o, first_page_local_lift S n deg (length (simplices IN S n k deg)) rows radii k = Ok o.
Proof. exact C45_total_aux. Qed.
Print Assumptions C45_lift_total.

Theorem C45_lift_decomposition : forall argsort rnd Dist max_r max_dim p IN n0 nerve,
  mv_input argsort Dist max_r max_dim p IN n0 nerve ->
  forall S, zero_page argsort rnd Dist max_r max_dim p IN n0 nerve = Ok S ->
  forall n k deg rows radii o, (n < length nerve)%nat -> (k < length (level n0 nerve n))%nat -> (deg <= Z.to_nat max_dim)%nat ->
  Forall (fun v => length v = length (simplices IN S n k deg)) rows -> length radii = length rows ->
  first_page_local_lift S n deg (length (simplices IN S n k deg)) rows radii k = Ok o ->
  match o with
  | None => rows = [] \/ (b_bars (im_of S n k deg) = [] /\ b_bars (hom_of S n k deg) = [])
  | Some (gammas, betas) =>
      let im := im_of S n k deg in let hom := hom_of S n k deg in
      nrows gammas = length (b_bars im) /\ nrows betas = length (b_bars hom) /\
      ncols gammas = length rows /\ ncols betas = length rows /\
      forall g, (g < length rows)%nat ->
        (forall a, get gammas a g <> 0 -> (a < length (b_bars im))%nat /\ bbirth (b_bars im) a <= nth g radii 0) /\
        (forall h, get betas h g <> 0 -> (h < length (b_bars hom))%nat /\ bbirth (b_bars hom) h <= nth g radii 0 /\
           (nth g radii 0 < bdeath (b_bars hom) h \/ max_r <= bdeath (b_bars hom) h)) /\
        forall i, vget (nth g rows []) i mod p =
          (Zsum (length (b_bars im)) (fun a => get gammas a g * get (b_coords im) i a)
           + Zsum (length (b_bars hom)) (fun h => get betas h g * get (b_coords hom) i h)) mod p
  end.
Proof. exact C45_aux. Qed.
Print Assumptions C45_lift_decomposition.

(** The [Im] used in the decomposition spans exactly the boundaries present at each radius. *)
Theorem C45_im_is_boundaries : forall argsort rnd Dist max_r max_dim p IN n0 nerve,
  mv_input argsort Dist max_r max_dim p IN n0 nerve ->
  forall S, zero_page argsort rnd Dist max_r max_dim p IN n0 nerve = Ok S ->
  forall n k d, (n < length nerve)%nat -> (k < length (level n0 nerve n))%nat -> (d < Z.to_nat max_dim)%nat ->
  let I := im_of S n k d in
  (forall r a, (a < length (b_bars I))%nat -> bbirth (b_bars I) a <= r -> local_bounds p Dist IN S n d k r (colv (b_coords I) a)) /\
  forall r v, local_bounds p Dist IN S n d k r v -> exists c, (forall a, r < bbirth (b_bars I) a -> c a = 0) /\
    forall i, v i mod p = Zsum (length (b_bars I)) (fun a => c a * colv (b_coords I) a i) mod p.
Proof. exact im_boundaries_aux. Qed.
Print Assumptions C45_im_is_boundaries.

(** ** C46: Cech image + boundary of the lift = combination of the homology classes, over the covers with homology in the degree *)
Theorem C46_zigzag : forall argsort rnd Dist max_r max_dim p IN n0 nerve,
  mv_input argsort Dist max_r max_dim p IN n0 nerve ->
  forall S, zero_page argsort rnd Dist max_r max_dim p IN n0 nerve = Ok S ->
  forall n deg start R, (Datatypes.S n < length nerve)%nat -> (deg < Z.to_nat max_dim)%nat -> has_cofaces n0 nerve n ->
  good (sizes IN n0 nerve S (Datatypes.S n) deg) start ->
  (forall s g, In g (le_ref (nth s start (LEntry [] LNil))) -> (g < length R)%nat) ->
  (forall g, (g < length R)%nat -> nth g R 0 < max_r) ->
  (forall s g, (s < length (level n0 nerve (Datatypes.S n)))%nat -> (g < length R)%nat ->
     local_cycle p Dist IN S (Datatypes.S n) deg s (nth g R 0) (value start s g)) ->
  (R <> [] -> level n0 nerve n <> []) ->
  exists B lifts, cech_diff_and_lift S n deg start R = Ok (B, lifts) /\
    nrows B = length R /\ ncols B = classes n0 nerve S n deg /\ (forall g h, 0 <= get B g h < p) /\
    good (sizes IN n0 nerve S n (Datatypes.S deg)) lifts /\
    forall k g, (k < length (level n0 nerve n))%nat -> (g < length R)%nat ->
      let H := hom_of S n k deg in
      let img := cech_image n0 nerve IN S n deg k (fun s => value start s g) in
      local_chain p Dist IN S n (Datatypes.S deg) k (nth g R 0) (value lifts k g) /\
      (forall h, (h < length (b_bars H))%nat -> get B g (classes_before S n deg k + h) <> 0 -> bbirth (b_bars H) h <= nth g R 0 < bdeath (b_bars H) h) /\
      (b_bars H <> [] -> forall j, (img j + local_bd IN S n deg k (value lifts k g) j) mod p =
         Zsum (length (b_bars H)) (fun h => get B g (classes_before S n deg k + h) * get (b_coords H) j h) mod p).
Proof. exact C46_aux. Qed.
Print Assumptions C46_zigzag.

(** ** C53: the first differential is the map induced by the Cech differential on homology *)
Theorem C53_first_differential : forall argsort rnd Dist max_r max_dim p IN n0 nerve,
  mv_input argsort Dist max_r max_dim p IN n0 nerve ->
  forall S, zero_page argsort rnd Dist max_r max_dim p IN n0 nerve = Ok S ->
  forall n deg, (Datatypes.S n < length nerve)%nat -> (deg < Z.to_nat max_dim)%nat -> has_cofaces n0 nerve n ->
  exists o, first_differential S n deg = Ok o /\
  match o with
  | None => classes n0 nerve S (Datatypes.S n) deg = 0%nat
  | Some B =>
      nrows B = classes n0 nerve S (Datatypes.S n) deg /\ ncols B = classes n0 nerve S n deg /\ (forall g h, 0 <= get B g h < p) /\
      forall s a k, (s < length (level n0 nerve (Datatypes.S n)))%nat -> (a < length (b_bars (hom_of S (Datatypes.S n) s deg)))%nat ->
        (k < length (level n0 nerve n))%nat ->
        let g := (classes_before S (Datatypes.S n) deg s + a)%nat in
        let r := bbirth (b_bars (hom_of S (Datatypes.S n) s deg)) a in
        let H := hom_of S n k deg in
        let img := cech_image n0 nerve IN S n deg k
                     (fun s' i => if Nat.eqb s' s then get (b_coords (hom_of S (Datatypes.S n) s deg)) i a else 0) in
        local_cycle p Dist IN S n deg k r img /\
        (forall h, (h < length (b_bars H))%nat -> get B g (classes_before S n deg k + h) <> 0 -> bbirth (b_bars H) h <= r < bdeath (b_bars H) h) /\
        local_bounds p Dist IN S n deg k r
          (fun j => img j - Zsum (length (b_bars H)) (fun h => get B g (classes_before S n deg k + h) * get (b_coords H) j h))
  end.
Proof. exact d1_aux. Qed.
Print Assumptions C53_first_differential.

(** ** C47: bookkeeping of the first page *)
Theorem C47_bookkeeping : forall rows out, out <> [] ->
  (forall deg l, (deg < rows)%nat -> In l out -> (deg < length (ph_hom (l_out l)))%nat /\
     b_dim (nth deg (ph_hom (l_out l)) empty_basis) = length (b_bars (nth deg (ph_hom (l_out l)) empty_basis))) ->
  exists c, add_output_first rows out (length out) = Ok c /\ c_loc c = out /\ forall deg, (deg < rows)%nat ->
    let N := length out in
    let bars k := b_bars (nth deg (ph_hom (l_out (nth k out no_local))) empty_basis) in
    let cyc := nth deg (c_cyc c) [] in
    let window_start k := match k with O => last cyc 0%nat | S k' => nth k' cyc 0%nat end in
    let total := list_sum (map (fun k => length (bars k)) (seq 0 N)) in
    length cyc = S N /\ nth N cyc 0%nat = 0%nat /\
    (forall k, (k < N)%nat -> nth k cyc 0%nat = list_sum (map (fun k => length (bars k)) (seq 0 (S k)))) /\
    nth deg (c_dim c) 0%nat = total /\
    nth deg (c_bars c) [] = concat (map bars (seq 0 N)) /\
    (forall g, (g < total)%nat -> exists k, (k < N)%nat /\ (window_start k <= g < nth k cyc 0)%nat /\
       nth g (nth deg (c_bars c) []) (0, 0) = nth (g - window_start k) (bars k) (0, 0) /\
       forall k', (k' < N)%nat -> (window_start k' <= g < nth k' cyc 0)%nat -> k' = k).
Proof. exact C47_aux. Qed.
Print Assumptions C47_bookkeeping.

(** Without simplices the trailing zero is missing: [cycle_dimensions] has no rows. *)
Theorem C47_no_simplices : forall rows nspx, exists c, add_output_first rows [] nspx = Ok c /\ c_cyc c = [] /\
  (forall deg, nth deg (c_dim c) 0%nat = 0%nat) /\ forall deg, nth deg (c_bars c) [] = [].
Proof. exact C47_empty. Qed.
Print Assumptions C47_no_simplices.

(** ** Concrete cases *)

(** The corners of a square and its centre; one cover element without the centre, one with it. *)
Definition ex_Dist : list (list Z) := [[0;20;28;20;14]; [20;0;20;28;14]; [28;20;0;20;14]; [20;28;20;0;14]; [14;14;14;14;0]].
Definition ex_nerve : list (list simplex) := [[[0;1]]; []]%nat.
Definition ex_IN : list (list (list nat)) := [[[0;1;2;3]; [0;1;2;3;4]]; [[0;1;2;3]]; []]%nat.
Definition ex_page := zero_page stable_argsort (fun x => x) ex_Dist 40 2 5 ex_IN 2 ex_nerve.
Definition ex_S : ss := match ex_page with Ok s => s | Err _ => SS 0 0 0 0 [] [] [] [] end.

Ltac incr := unfold increasing; repeat match goal with |- context [match ?x with O => _ | S _ => _ end] => destruct x; cbn end; repeat (first [apply SSorted_nil | apply SSorted_cons | apply Forall_nil | apply Forall_cons]); try lia.

Lemma ex_square : square ex_Dist.
Proof. intros [|[|[|[|[|i]]]]] H; cbn in *; try reflexivity; lia. Qed.

Lemma ex_nonneg : forall u v, (u < v < length ex_Dist)%nat -> 0 <= dist ex_Dist u v.
Proof. intros u [|[|[|[|[|v]]]]] H; cbn in H; try lia; destruct u as [|[|[|[|u]]]]; cbn; lia. Qed.

Lemma prime_5 : prime 5.
Proof. apply prime_alt. split; [lia|]. intros q H [x Hx]. assert (q = 2 \/ q = 3 \/ q = 4) as [->|[->| ->]] by lia; lia. Qed.

Lemma ex_simplicial : simplicial 2 ex_nerve.
Proof.
  split; [|split].
  - intros [|[|[|[|d]]]] s H; cbn in H; repeat (destruct H as [<-|H]); try contradiction; (split; [reflexivity|]; split; [incr|]; intros v Hv; cbn in Hv; lia).
  - intros [|[|[|[|d]]]]; cbn; repeat constructor; simpl; intuition discriminate.
  - intros [|[|[|d]]] s k H Hk; cbn in H; intuition. subst s. destruct k as [|[|k]]; cbn; [tauto|tauto|lia].
Qed.

Lemma ex_covering : covering 5 2 ex_nerve ex_IN.
Proof.
  constructor.
  - exact ex_simplicial.
  - discriminate.
  - reflexivity.
  - intros [|[|[|d]]] H; cbn in *; try reflexivity; lia.
  - intros [|[|[|d]]] [|[|[|k]]]; cbn; incr.
  - intros [|[|[|[|d]]]] [|[|[|k]]] q H; cbn in H; intuition lia.
  - intros [|[|[|d]]] [|[|k]] q Hd Hk; cbn in *; try lia; (split; [intros H v Hv; repeat (destruct Hv as [<-|Hv]; [cbn; tauto|]); contradiction|]); intros H.
    + exact (H 0%nat (or_introl eq_refl)).
    + exact (H 1%nat (or_introl eq_refl)).
    + exact (H 0%nat (or_introl eq_refl)).
Qed.

Example ex_input : mv_input stable_argsort ex_Dist 40 2 5 ex_IN 2 ex_nerve.
Proof.
  constructor; [exact stable_argsort_sorts|exact ex_square|exact ex_nonneg|lia|lia|exact prime_5|exact ex_covering].
Qed.

Example ex_cofaces : has_cofaces 2 ex_nerve 0.
Proof.
  intros t H. cbn in H. destruct H as [<-|[<-|[]]]; exists [0;1]%nat; [exists 1%nat|exists 0%nat]; cbn; auto.
Qed.

Example ex_page_ok : ex_page = Ok ex_S.
Proof. vm_compute. reflexivity. Qed.

(** The first page: barcodes, windows, and both differentials. *)
Example ex_first_page :
  map c_cyc (s_cols ex_S) = [[[4;9;0]; [1;1;0]]; [[4;0]; [1;0]]; []]%nat /\
  map c_dim (s_cols ex_S) = [[9;1]; [4;1]; [0;0]]%nat /\
  nth 1 (c_bars (nth 0 (s_cols ex_S) no_column)) [] = [(20, 28)] /\
  first_differential ex_S 0 0 = Ok (Some (Mat 4 [[1;0;0;0]; [0;1;0;0]; [0;0;1;0]; [0;0;0;1]; [4;0;0;0]; [0;0;0;0]; [0;1;4;0]; [0;0;1;0]; [0;0;0;1]])) /\
  first_differential ex_S 0 1 = Ok (Some (Mat 1 [[4]])).
Proof. vm_compute. repeat split; reflexivity. Qed.

(** The cycle around the square, over the intersection. *)
Definition ex_start : chains := [LEntry [0%nat] (LMat 6 (cols (b_coords (hom_of ex_S 1 0 1))))].

Example ex_start_good : good (sizes ex_IN 2 ex_nerve ex_S 1 1) ex_start.
Proof.
  replace (sizes ex_IN 2 ex_nerve ex_S 1 1) with [6%nat] by (vm_compute; reflexivity).
  replace ex_start with [LEntry [0%nat] (LMat 6 [[1;1;4;1;0;0]])] by (vm_compute; reflexivity).
  repeat constructor.
Qed.

Example ex_start_cycle : forall s g, (s < length (level 2 ex_nerve 1))%nat -> (g < length [20])%nat ->
  local_cycle 5 ex_Dist ex_IN ex_S 1 1 s (nth g [20] 0) (value ex_start s g).
Proof.
  intros s g Hs Hg. cbn in Hs, Hg. assert (s = 0%nat) as -> by lia. assert (g = 0%nat) as -> by lia.
  destruct (zero_page_local_homology _ _ _ _ _ _ _ _ _ ex_input ex_S ex_page_ok 1%nat 0%nat) as (_ & H); [cbn; lia|cbn; lia|].
  destruct (H 1%nat 20) as (H1 & _); [cbn; lia|lia|]. apply (H1 0%nat); [vm_compute; lia|].
  replace (b_bars (hom_of ex_S 1 0 1)) with [(20, 28)] by (vm_compute; reflexivity). cbn. lia.
Qed.

(** C46 needs homology in the degree: over the second cover element, which has none, the Cech image is not zero
    but no lift is returned. *)
Theorem C46_no_homology_refuted : exists argsort rnd Dist max_r max_dim p IN n0 nerve S n deg start R B lifts,
  mv_input argsort Dist max_r max_dim p IN n0 nerve /\
  zero_page argsort rnd Dist max_r max_dim p IN n0 nerve = Ok S /\
  (Datatypes.S n < length nerve)%nat /\ (deg < Z.to_nat max_dim)%nat /\ has_cofaces n0 nerve n /\
  good (sizes IN n0 nerve S (Datatypes.S n) deg) start /\
  (forall s g, (s < length (level n0 nerve (Datatypes.S n)))%nat -> (g < length R)%nat ->
     local_cycle p Dist IN S (Datatypes.S n) deg s (nth g R 0) (value start s g)) /\
  cech_diff_and_lift S n deg start R = Ok (B, lifts) /\
  exists k g j, (k < length (level n0 nerve n))%nat /\ (g < length R)%nat /\
    (cech_image n0 nerve IN S n deg k (fun s => value start s g) j + local_bd IN S n deg k (value lifts k g) j) mod p <>
    Zsum (length (b_bars (hom_of S n k deg))) (fun h => get B g (classes_before S n deg k + h) * get (b_coords (hom_of S n k deg)) j h) mod p.
Proof.
  exists stable_argsort, (fun x => x), ex_Dist, 40, 2, 5, ex_IN, 2%nat, ex_nerve, ex_S, 0%nat, 1%nat, ex_start, [20], (Mat 1 [[4]]), (empty_chains 2).
  split; [exact ex_input|]. split; [exact ex_page_ok|]. split; [cbn; lia|]. split; [cbn; lia|]. split; [exact ex_cofaces|].
  split; [exact ex_start_good|]. split; [exact ex_start_cycle|]. split; [vm_compute; reflexivity|].
  exists 1%nat, 0%nat, 4%nat. split; [cbn; lia|]. split; [cbn; lia|]. vm_compute. discriminate.
Qed.
Print Assumptions C46_no_homology_refuted.

(** Over the first cover element the zig-zag holds. *)
Example ex_zigzag_first : b_bars (hom_of ex_S 0 0 1) <> [] /\ cech_image 2 ex_nerve ex_IN ex_S 0 1 0 (fun s => value ex_start s 0) 0 mod 5 <> 0.
Proof. vm_compute. split; discriminate. Qed.

(** Three cover elements with a common intersection. *)
Definition tri_Dist : list (list Z) := [[0;4;8;4]; [4;0;4;8]; [8;4;0;4]; [4;8;4;0]].
Definition tri_nerve : list (list simplex) := [[[0;1]; [0;2]; [1;2]]; [[0;1;2]]; []]%nat.
Definition tri_IN : list (list (list nat)) := [[[0;1;2]; [1;2;3]; [0;1;2;3]]; [[1;2]; [0;1;2]; [1;2;3]]; [[1;2]]; []]%nat.
Definition tri_page := zero_page stable_argsort (fun x => x) tri_Dist 10 1 3 tri_IN 3 tri_nerve.
Definition tri_S : ss := match tri_page with Ok s => s | Err _ => SS 0 0 0 0 [] [] [] [] end.

Lemma prime_3' : prime 3.
Proof. apply prime_alt. split; [lia|]. intros q H [x Hx]. assert (q = 2) as -> by lia. lia. Qed.

Lemma tri_covering : covering 4 3 tri_nerve tri_IN.
Proof.
  constructor.
  - split; [|split].
    + intros [|[|[|[|[|d]]]]] s H; cbn in H; repeat (destruct H as [<-|H]); try contradiction; (split; [reflexivity|]; split; [incr|]; intros v Hv; cbn in Hv; lia).
    + intros [|[|[|[|[|d]]]]]; cbn; repeat constructor; simpl; intuition discriminate.
    + intros [|[|[|[|d]]]] s k H Hk; cbn in H; intuition; subst s; destruct k as [|[|[|k]]]; cbn; try tauto; lia.
  - discriminate.
  - reflexivity.
  - intros [|[|[|[|d]]]] H; cbn in *; try reflexivity; lia.
  - intros [|[|[|[|d]]]] [|[|[|[|k]]]]; cbn; incr.
  - intros [|[|[|[|[|d]]]]] [|[|[|[|k]]]] q H; cbn in H; intuition lia.
  - intros [|[|[|[|d]]]] [|[|[|k]]] q Hd Hk; cbn in *; try lia;
      (split; [intros H v Hv; repeat (destruct Hv as [<-|Hv]; [cbn; tauto|]); contradiction|]); intros H;
      pose proof (H 0%nat) as H0; pose proof (H 1%nat) as H1; pose proof (H 2%nat) as H2; cbn in H0, H1, H2; clear H; intuition lia.
Qed.

Example tri_input : mv_input stable_argsort tri_Dist 10 1 3 tri_IN 3 tri_nerve.
Proof.
  constructor; [exact stable_argsort_sorts| | |lia|lia|exact prime_3'|exact tri_covering].
  - intros [|[|[|[|i]]]] H; cbn in *; try reflexivity; lia.
  - intros u [|[|[|[|v]]]] H; cbn in H; try lia; destruct u as [|[|[|u]]]; cbn; lia.
Qed.

Example tri_cofaces : has_cofaces 3 tri_nerve 0 /\ has_cofaces 3 tri_nerve 1.
Proof.
  split; intros t H; cbn in H; repeat (destruct H as [<-|H]); try contradiction.
  - exists [0;1]%nat, 1%nat. cbn. auto.
  - exists [0;1]%nat, 0%nat. cbn. auto.
  - exists [0;2]%nat, 0%nat. cbn. auto.
  - exists [0;1;2]%nat, 2%nat. cbn. auto.
  - exists [0;1;2]%nat, 1%nat. cbn. auto.
  - exists [0;1;2]%nat, 0%nat. cbn. auto.
Qed.

(** Two generators on the triple intersection. *)
Definition tri_start : chains := [LEntry [0;1]%nat (LMat 2 [[1;2]; [0;1]])].

Example tri_run : tri_page = Ok tri_S /\ good (sizes tri_IN 3 tri_nerve tri_S 2 0) tri_start /\
  exists c c', cech_diff tri_S 1 0 tri_start = Ok c /\ cech_diff tri_S 0 0 c = Ok c' /\
    c = [LEntry [0;1]%nat (LMat 2 [[1;2]; [0;1]]); LEntry [0;1]%nat (LMat 3 [[0;2;1]; [0;0;2]]); LEntry [0;1]%nat (LMat 3 [[1;2;0]; [0;1;0]])] /\
    map le_coord c' = [LMat 3 [[0;0;0]; [0;0;0]]; LMat 3 [[0;0;0]; [0;0;0]]; LMat 4 [[0;0;0;0]; [0;0;0;0]]].
Proof.
  split; [vm_compute; reflexivity|]. split.
  - replace (sizes tri_IN 3 tri_nerve tri_S 2 0) with [2%nat] by (vm_compute; reflexivity). repeat constructor.
  - do 2 eexists. split; [vm_compute; reflexivity|]. split; [vm_compute; reflexivity|]. split; reflexivity.
Qed.

(** C44: an edge over the triple intersection and its boundary. *)
Example tri_vertical : exists d d', cech_diff tri_S 1 1 [LEntry [0%nat] (LMat 1 [[1]])] = Ok d /\
  cech_diff tri_S 1 0 [LEntry [0%nat] (LMat 2 [[1;2]])] = Ok d' /\
  (forall j, (j < 2)%nat -> local_bd tri_IN tri_S 2 0 0 (fun i => nth i [1] 0) j mod 3 = nth j [1;2] 0) /\
  value d 0 0 0 = 2 /\ local_bd tri_IN tri_S 1 0 0 (value d 0 0) 0 mod 3 = 2 /\ value d' 0 0 0 = 1.
Proof.
  do 2 eexists. split; [vm_compute; reflexivity|]. split; [vm_compute; reflexivity|].
  split; [intros [|[|j]] H; [vm_compute; reflexivity|vm_compute; reflexivity|lia]|]. vm_compute. auto.
Qed.
