(** * The whole computation: property C55 *)
From Coq Require Import QArith.
From Verif Require Import Base SortX Basis_model Simp_model SS_model HP_model Spec_MV MV_props.
From Coq Require Import Permutation Znumtheory.
Local Open Scope Z_scope.

(** ** C55: the entries of [persistent_homology] are the barcodes of the Rips filtration, degree by degree.

    The statement is false of the code: each of the four clouds below is within the documented conditions, and [create_MV_ss] either
    returns something else or raises. *)

(** A class too many, because the Cech lift is not computed over cover elements without homology in the degree. *)
Theorem C55_silent_refuted : exists dim pc max_r max_dim max_div overlap p S P Hs d, mv_call dim pc max_r max_dim max_div overlap p /\
  create_MV_ss stable_argsort (fun x => x) (fun x => x) dim (map (map inject_Z) pc) (sq_dists dim pc) max_r max_dim max_div overlap p = Ok (S, P, Hs) /\
  (d < length Hs)%nat /\ ~ rips_barcode p (sq_dists dim pc) max_r d (b_bars (nth d Hs empty_basis)).
Proof. exact silent_aux. Qed.
Print Assumptions C55_silent_refuted.

(** A degree without classes is left out of the list, so that the later ones move to its place. *)
Theorem C55_shifted_refuted : exists dim pc max_r max_dim max_div overlap p S P Hs d, mv_call dim pc max_r max_dim max_div overlap p /\
  create_MV_ss stable_argsort (fun x => x) (fun x => x) dim (map (map inject_Z) pc) (sq_dists dim pc) max_r max_dim max_div overlap p = Ok (S, P, Hs) /\
  (d < length Hs)%nat /\ ~ rips_barcode p (sq_dists dim pc) max_r d (b_bars (nth d Hs empty_basis)).
Proof. exact shifted_aux. Qed.
Print Assumptions C55_shifted_refuted.

(** Classes over an intersection but none over the cover elements: the shapes do not match. *)
Theorem C55_value_error_refuted : exists dim pc max_r max_dim max_div overlap p, mv_call dim pc max_r max_dim max_div overlap p /\
  create_MV_ss stable_argsort (fun x => x) (fun x => x) dim (map (map inject_Z) pc) (sq_dists dim pc) max_r max_dim max_div overlap p = Err ValueError.
Proof. exact value_error_aux. Qed.
Print Assumptions C55_value_error_refuted.

Theorem C55_runtime_error_refuted : exists dim pc max_r max_dim max_div overlap p, mv_call dim pc max_r max_dim max_div overlap p /\
  create_MV_ss stable_argsort (fun x => x) (fun x => x) dim (map (map inject_Z) pc) (sq_dists dim pc) max_r max_dim max_div overlap p = Err RuntimeError.
Proof. exact runtime_error_aux. Qed.
Print Assumptions C55_runtime_error_refuted.

(** On a ring of sixteen points covered by four squares the answer is right. *)
Example C55_ring : let pc := [[0;0];[2;0];[4;0];[6;0];[8;0];[8;2];[8;4];[8;6];[8;8];[6;8];[4;8];[2;8];[0;8];[0;6];[0;4];[0;2]] in
  mv_call 2 pc 5 2 2 (3#1) 5 /\ bars_of (run 2 pc 5 2 2 (3#1) 5) = Ok [(0, 5) :: repeat (0, 4) 15; [(4, 5)]] /\
  rips_barcode 5 (sq_dists 2 pc) 5 0 ((0, 5) :: repeat (0, 4) 15) /\ rips_barcode 5 (sq_dists 2 pc) 5 1 [(4, 5)].
Proof.
  intros pc. split; [apply call_ok; reflexivity|]. split; [vm_compute; reflexivity|]. split.
  - apply (is_barcode 2 pc 5 2 [(0, 5) :: repeat (0, 4) 15; [(4, 5)]; []] 0); [lia|vm_compute; reflexivity|cbn; lia].
  - apply (is_barcode 2 pc 5 2 [(0, 5) :: repeat (0, 4) 15; [(4, 5)]; []] 1); [lia|vm_compute; reflexivity|cbn; lia].
Qed.
