(** * The representatives kept by the spectral sequence: property C63 *)
From Coq Require Import QArith.
From Verif Require Import Base SortX Basis_model Simp_model LC_model Spec_LC SS_model Cover_model HP_model Spec_Simp Spec_SS Spec_E2 Spec_Cover Spec_Call Spec_MV Spec_Zig Nerve_err HP_zig Zig_err.
Local Open Scope Z_scope.

(** ** C63: the representatives of the classes of the pages are staircases in the double complex.
    The first chains are local cycles; "d_v(next) + d_cech(chains) = 0" over the simplices of the nerve which have classes in the degree. *)
Theorem C63_staircase : forall argsort rnd Dist max_r max_dim p IN n0 nerve S P Hs, mv_input argsort Dist max_r max_dim p IN n0 nerve -> pure_nerve n0 nerve ->
  mv_ss argsort rnd Dist max_r max_dim p IN n0 nerve = Ok (S, P, Hs) ->
  forall k n d reps, tget (h_reps P) k n d = Ok reps -> reps <> [] ->
    length reps = (Nat.min n k + 1)%nat /\ staircase p IN n0 nerve S (inhabited S) n d reps.
Proof. exact mv_stairs. Qed.
Print Assumptions C63_staircase.

Theorem C63_create : forall argsort rnd dim pc Dist max_r max_dim max_div overlap p S P Hs, cloud_call argsort rnd dim pc Dist max_r max_dim max_div p ->
  create_MV_ss argsort rnd (fun x => x) dim pc Dist max_r max_dim max_div overlap p = Ok (S, P, Hs) ->
  exists pts IN n0 nerve, generate_cover (fun x => x) max_div overlap dim pc = Ok (pts, IN, (n0, nerve)) /\
  forall k n d reps, tget (h_reps P) k n d = Ok reps -> reps <> [] ->
    length reps = (Nat.min n k + 1)%nat /\ staircase p IN n0 nerve S (inhabited S) n d reps.
Proof. exact create_stairs. Qed.
Print Assumptions C63_create.

(** An octahedron beside a square: representatives of length 3, none of them zero. *)
Example C63_pair : mv_input stable_argsort pair_Dist 2 3 5 pair_IN 4 octa_nerve /\ pure_nerve 4 octa_nerve /\
  exists S P Hs reps, mv_ss stable_argsort (fun x => x) pair_Dist 2 3 5 pair_IN 4 octa_nerve = Ok (S, P, Hs) /\
  tget (h_reps P) 2 2 0 = Ok reps /\ length reps = 3%nat /\ value (nth 0 reps []) 1 0 0 <> 0 /\ value (nth 1 reps []) 0 0 0 <> 0 /\ value (nth 2 reps []) 0 0 0 <> 0 /\
  inhabited S 1 0 0 /\ inhabited S 0 1 0.
Proof. exact (conj pair_input (conj octa_pure pair_stairs)). Qed.

(** ** The sum need not be zero over the other simplices of the nerve: the vertical lift leaves out the simplices without classes. *)
Theorem C63_everywhere_refuted : exists dim pc Dist max_r max_dim max_div overlap p S P Hs pts IN n0 nerve k n d reps,
  cloud_call stable_argsort (fun x => x) dim pc Dist max_r max_dim max_div p /\
  generate_cover (fun x => x) max_div overlap dim pc = Ok (pts, IN, (n0, nerve)) /\
  create_MV_ss stable_argsort (fun x => x) (fun x => x) dim pc Dist max_r max_dim max_div overlap p = Ok (S, P, Hs) /\
  tget (h_reps P) k n d = Ok reps /\ reps <> [] /\ ~ staircase p IN n0 nerve S (fun _ _ _ => True) n d reps.
Proof. exact everywhere_wrong. Qed.
Print Assumptions C63_everywhere_refuted.

(** ** The representatives of a class need not be other than zero: a class which goes on from page 1 to page 2 loses its representatives. *)
Theorem C63_nonzero_refuted : exists Dist max_r max_dim p IN n0 nerve S P Hs H1 H2 reps1 reps2 n d,
  mv_input stable_argsort Dist max_r max_dim p IN n0 nerve /\ pure_nerve n0 nerve /\
  mv_ss stable_argsort (fun x => x) Dist max_r max_dim p IN n0 nerve = Ok (S, P, Hs) /\
  tget (h_hom P) 1 n d = Ok H1 /\ tget (h_hom P) 2 n d = Ok H2 /\ tget (h_reps P) 1 n d = Ok reps1 /\ tget (h_reps P) 2 n d = Ok reps2 /\
  b_bars H1 = [(1, 2)] /\ b_bars H2 = [(1, 2)] /\ (exists k j, value (nth 0 reps1 []) k 0 j = 1) /\ forall i k g j, value (nth i reps2 []) k g j = 0.
Proof. exact vanishing. Qed.
Print Assumptions C63_nonzero_refuted.
