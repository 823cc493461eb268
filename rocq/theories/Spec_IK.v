(** * Specification of images, kernels and quotients of persistence modules

    A persistence module is a list of bars (birth, death), one per generator; at
    the radius [r] it is the vector space over Z/p on the generators alive at [r].
    Vectors are functions [nat -> Z] read modulo p; at [r] only the entries of the
    living generators count. *)
From Verif Require Import Base Basis_model Spec_PH.
From Coq Require Import Sorted Znumtheory.
Local Open Scope Z_scope.

Definition living (bars : list (Z * Z)) (r : Z) (i : nat) : bool :=
  Nat.ltb i (length bars) && (fst (nth i bars (0, 0)) <=? r) && (r <? snd (nth i bars (0, 0))).

(** The vector seen at the radius [r]. *)
Definition restr (bars : list (Z * Z)) (r : Z) (v : nat -> Z) (i : nat) : Z := if living bars r i then v i else 0.
Definition null_at (p : Z) (bars : list (Z * Z)) (r : Z) (v : nat -> Z) : Prop :=
  forall i, living bars r i = true -> v i mod p = 0.

Definition mapply (F : mat) (x : nat -> Z) (i : nat) : Z := Zsum (ncols F) (fun j => get F i j * x j).

(** A matrix defines a morphism when a generator is only sent to generators which are born and die no later. *)
Definition morphism (p : Z) (A B : list (Z * Z)) (F : mat) : Prop :=
  forall i j, (i < length B)%nat -> (j < length A)%nat -> get F i j mod p <> 0 ->
    fst (nth i B (0, 0)) <= fst (nth j A (0, 0)) /\ snd (nth i B (0, 0)) <= snd (nth j A (0, 0)).

(** Kernel and image at the radius [r]. *)
Definition ker_at (p : Z) (A B : list (Z * Z)) (F : mat) (r : Z) (v : nat -> Z) : Prop :=
  null_at p B r (mapply F (restr A r v)).
Definition im_at (p : Z) (A B : list (Z * Z)) (F : mat) (r : Z) (v : nat -> Z) : Prop :=
  exists x, null_at p B r (fun i => v i - mapply F (restr A r x) i).

(** Span, at the radius [r], of a family of vectors of the module [B] carrying bars. *)
Definition span_at (p : Z) (B bars : list (Z * Z)) (M : mat) (r : Z) (v : nat -> Z) : Prop :=
  exists c, null_at p B r (fun i => v i - Zsum (length bars) (fun k => restr bars r c k * get M i k)).

(** No generator dies while another is alive, unless they die together. *)
Definition calm_bars (A : list (Z * Z)) : Prop :=
  forall x y, In x A -> In y A -> snd x < fst y \/ snd y <= snd x.

(** ** What the functions are called with and what they return *)

(** A barcode basis all of whose bars are non-empty intervals. *)
Definition bars_ok (b : basis) : Prop :=
  b_flat b = false /\ b_dim b = length (b_bars b) /\ forall x, In x (b_bars b) -> fst x < snd x.

(** Rounding keeps the births of the listed bars apart. *)
Definition rnd_faithful (rnd : Z -> Z) (bars : list bar) : Prop :=
  forall x y, In x bars -> In y bars -> rnd (fst x) <= rnd (fst y) -> fst x <= fst y.

(** The domain: either marked as sorted, and then sorted by birth, or sorted by the function. *)
Definition dom_ok (rnd : Z -> Z) (A : basis) : Prop :=
  if b_sorted A
  then forall i j, (i <= j)%nat -> (j < length (b_bars A))%nat -> fst (nth i (b_bars A) (0, 0)) <= fst (nth j (b_bars A) (0, 0))
  else rnd_faithful rnd (b_bars A).

Record ik_input (rnd : Z -> Z) (p : Z) (A B : basis) (F : mat) : Prop := {
  in_prime : prime p;
  in_A : bars_ok A;
  in_B : bars_ok B;
  in_brk : b_brk B = None;
  in_rows : b_dim B = nrows F;
  in_cols : b_dim A = ncols F;
  in_wf : wf_mat F;
  in_nonneg : forall i j, 0 <= get F i j;
  in_mor : morphism p (b_bars A) (b_bars B) F;
  in_pos : (0 < b_dim A)%nat;
  in_dom : dom_ok rnd A
}.

(** ** One column reduction *)

(** The last of the rows [act] on which [v] is not zero is [q]. *)
Definition last_on (p : Z) (act : list nat) (v : nat -> Z) (q : nat) : Prop :=
  In q act /\ v q mod p <> 0 /\ forall i, In i act -> (q < i)%nat -> v i mod p = 0.

(** The earlier columns: of the right sizes, with entries which are not negative, and each pivot which is an index is
    the last active row of its column. *)
Definition prev_ok (p : Z) (act : list nat) (m n : nat) (prev : list (vec * vec * Z)) : Prop :=
  forall r t q, In (r, t, q) prev ->
    length r = m /\ length t = n /\ (forall i, 0 <= vget r i) /\ (forall i, 0 <= vget t i) /\
    (0 <= q -> last_on p act (vget r) (Z.to_nat q)).

(** ** Results *)

(** Shape of the returned bases. *)
Definition over (b amb : basis) : Prop :=
  bars_ok b /\ b_prev b = Some amb /\ b_sorted b = true /\ b_brk b = None /\
  nrows (b_coords b) = b_dim amb /\ ncols (b_coords b) = b_dim b /\ wf_mat (b_coords b).
Definition column (M : mat) (k i : nat) : Z := get M i k.

(** ** Quotients *)

(** Vectors which are, at [r], combinations of the columns of [M] whose bars are born by [r]. *)
Definition born_span (p : Z) (B bars : list (Z * Z)) (M : mat) (r : Z) (v : nat -> Z) : Prop :=
  exists c, (forall k, c k <> 0 -> (k < length bars)%nat /\ fst (nth k bars (0, 0)) <= r) /\
    null_at p B r (fun i => v i - mapply M c i).

(** Coordinates over [amb] of a family with bars: sizes, and entries which are not negative. *)
Definition coords_ok (b amb : basis) : Prop :=
  bars_ok b /\ nrows (b_coords b) = b_dim amb /\ ncols (b_coords b) = b_dim b /\ wf_mat (b_coords b) /\
  forall i j, 0 <= get (b_coords b) i j.

(** What [quotient] is called with: [M] is a family of generators with their bars, [N] a family of generators of which
    only the births need to fit. *)
Record quot_input (rnd : Z -> Z) (p : Z) (B M N : basis) : Prop := {
  qi_prime : prime p;
  qi_B : bars_ok B;
  qi_brk : b_brk B = None;
  qi_M : coords_ok M B;
  qi_N : coords_ok N B;
  qi_prev : b_prev M = Some B;
  qi_Mmor : morphism p (b_bars M) (b_bars B) (b_coords M);
  qi_Nborn : forall i k, (i < b_dim B)%nat -> (k < b_dim N)%nat -> get (b_coords N) i k mod p <> 0 ->
     fst (nth i (b_bars B) (0, 0)) <= fst (nth k (b_bars N) (0, 0));
  qi_rnd : rnd_faithful rnd (b_bars M)
}.

(** ** Chain complexes of persistence modules *)

(** Cycles in degree [d] at the radius [r]; everything in degree 0. *)
Definition cycles_at (p : Z) (D : list mat) (Bs : list basis) (d : nat) (r : Z) (v : nat -> Z) : Prop :=
  match d with
  | O => True
  | S e => ker_at p (b_bars (nth d Bs empty_basis)) (b_bars (nth e Bs empty_basis)) (nth d D (Mat 0 [])) r v
  end.
(** Boundaries in degree [d]: at the radius [r] equal to the image of a vector of degree [d + 1]. *)
Definition bounds_at (p : Z) (D : list mat) (Bs : list basis) (d : nat) (r : Z) (v : nat -> Z) : Prop :=
  im_at p (b_bars (nth (S d) Bs empty_basis)) (b_bars (nth d Bs empty_basis)) (nth (S d) D (Mat 0 [])) r v.

(** Rounding keeps the listed numbers apart. *)
Definition rnd_apart (rnd : Z -> Z) (l : list Z) : Prop := forall x y, In x l -> In y l -> rnd x <= rnd y -> x <= y.
Definition endpoints (bars : list (Z * Z)) : list Z := map fst bars ++ map snd bars.

(** A chain of morphisms of persistence modules. *)
Record chain_input (rnd : Z -> Z) (p : Z) (D : list mat) (Bs : list basis) : Prop := {
  ci_prime : prime p;
  ci_len : (0 < length Bs <= length D)%nat;
  ci_base : forall d, (d < length Bs)%nat -> b_brk (nth d Bs empty_basis) = None /\
     ((0 < b_dim (nth d Bs empty_basis))%nat /\ bars_ok (nth d Bs empty_basis) \/
      b_dim (nth d Bs empty_basis) = 0%nat /\ b_bars (nth d Bs empty_basis) = []);
  ci_mor : forall d, (S d < length Bs)%nat -> (0 < b_dim (nth (S d) Bs empty_basis))%nat ->
     (0 < b_dim (nth d Bs empty_basis))%nat ->
     ik_input rnd p (nth (S d) Bs empty_basis) (nth d Bs empty_basis) (nth (S d) D (Mat 0 []));
  ci_rnd : forall d, (d < length Bs)%nat ->
     rnd_apart rnd (endpoints (b_bars (nth d Bs empty_basis) ++ match d with O => [] | S e => b_bars (nth e Bs empty_basis) end))
}.
(** Boundaries are cycles. *)
Definition is_complex (p : Z) (D : list mat) (Bs : list basis) : Prop :=
  forall d r v, (S d < length Bs)%nat -> bounds_at p D Bs (S d) r v -> cycles_at p D Bs (S d) r v.
(** The module of degree [d] is not zero and the one below it is. *)
Definition over_zero (Bs : list basis) (d : nat) : Prop :=
  match d with
  | O => False
  | S e => (0 < b_dim (nth d Bs empty_basis))%nat /\ b_dim (nth e Bs empty_basis) = 0%nat
  end.
