(** * The example point clouds *)
From Coq Require Import Reals List Arith Lra Lia.
From Verif Require Import Base Cloud_model Spec_Cloud.
Import ListNotations.
Local Open Scope R_scope.

Lemma norm_sum v : norm v = sqrt (sum_sq v).
Proof. reflexivity. Qed.
Lemma sum_sq_nonneg v : 0 <= sum_sq v.
Proof. induction v as [|x v IH]; cbn; [lra|]. fold (sum_sq v). nra. Qed.
Lemma norm_sq v : norm v * norm v = sum_sq v.
Proof. apply sqrt_sqrt. apply sum_sq_nonneg. Qed.
Lemma norm_nonneg v : 0 <= norm v.
Proof. apply sqrt_pos. Qed.

Lemma cs x : cos x * cos x + sin x * sin x = 1.
Proof. pose proof (sin2_cos2 x) as H. unfold Rsqr in H. lra. Qed.

(** ** Circle *)
Lemma circle_aux n r : (0 < n)%nat -> exists pts, circle n r = Ok pts /\ length pts = n /\ forall v, In v pts -> on_circle r v.
Proof.
  intros Hn. destruct n as [|n]; [lia|]. unfold circle. eexists. split; [reflexivity|]. split; [rewrite map_length, seq_length; auto|].
  intros v Hv. apply in_map_iff in Hv. destruct Hv as (k & <- & _). do 2 eexists. split; [reflexivity|].
  match goal with |- context [cos ?u] => generalize u end. intros t.
  replace (r * cos t * (r * cos t) + r * sin t * (r * sin t)) with (r * r * (cos t * cos t + sin t * sin t)) by ring. rewrite cs. ring.
Qed.

Lemma angle_inj a b : 0 <= a -> a < b -> b < 2 * PI -> cos a = cos b -> sin a = sin b -> False.
Proof.
  intros Ha Hab Hb Hc Hs. assert (E : cos (b - a) = 1) by (rewrite cos_minus, <- Hc, <- Hs; apply cs).
  replace (b - a) with (2 * ((b - a) / 2)) in E by field. rewrite cos_2a_sin in E.
  assert (0 < sin ((b - a) / 2)) by (apply sin_gt_0; lra). nra.
Qed.

Lemma circle_distinct_aux n r pts : 0 < r -> circle n r = Ok pts -> NoDup pts.
Proof.
  intros Hr. destruct n as [|n]; [discriminate|]. unfold circle. intros E. injection E as <-.
  set (N := S n). assert (HN : 0 < INR N) by (apply lt_0_INR; unfold N; lia). pose proof PI_RGT_0 as Hpi.
  set (step := 2 * PI / INR N). assert (Hst : 0 < step) by (unfold step; apply Rdiv_lt_0_compat; lra).
  assert (Hstep : INR N * step = 2 * PI) by (unfold step; field; lra).
  assert (Inj : forall i j, (i < j < N)%nat -> [r * cos (INR i * step); r * sin (INR i * step)] <> [r * cos (INR j * step); r * sin (INR j * step)]).
  { intros i j Hij E. injection E as E1 E2. apply Rmult_eq_reg_l in E1, E2; try lra.
    apply (angle_inj (INR i * step) (INR j * step)); auto.
    - pose proof (pos_INR i). nra.
    - apply Rmult_lt_compat_r; auto. apply lt_INR. lia.
    - rewrite <- Hstep. apply Rmult_lt_compat_r; auto. apply lt_INR. lia. }
  assert (G : forall l, NoDup l -> (forall k, In k l -> (k < N)%nat) -> NoDup (map (fun k => [r * cos (INR k * step); r * sin (INR k * step)]) l)).
  { induction l as [|k l IH]; intros Hl Hk; cbn [map]; constructor.
    - intros X. apply in_map_iff in X. destruct X as (j & E & Hj). inversion Hl as [|? ? Hn Hl']; subst.
      assert (j <> k) by (intros ->; contradiction). pose proof (Hk k ltac:(left; auto)). pose proof (Hk j ltac:(right; auto)).
      destruct (le_lt_dec j k) as [Hjk|Hjk]; [apply (Inj j k); [lia|auto]|apply (Inj k j); [lia|auto]].
    - apply IH; [inversion Hl; auto|]. intros j Hj. apply Hk. right. auto. }
  apply (G (seq 0 N)); [apply seq_NoDup|]. intros k Hk. apply in_seq in Hk. lia.
Qed.

Lemma random_circle_aux n r e c rand : in_unit rand -> 0 <= r -> 0 <= e ->
  length (random_circle n r e c rand) = n /\ forall v, In v (random_circle n r e c rand) -> in_annulus c r (r * (1 + e)) v.
Proof.
  intros Hu Hr He. unfold random_circle. split; [rewrite map_length, seq_length; auto|]. intros v Hv. apply in_map_iff in Hv. destruct Hv as (k & <- & _).
  do 2 eexists. split; [reflexivity|]. set (t := rand (2 * k)%nat * 2 * PI). set (u := rand (2 * k + 1)%nat). pose proof (Hu (2 * k + 1)%nat) as H. fold u in H.
  pose proof (cs t) as Hcs. set (q := r * (1 + u * e)). 
  replace ((fst c + q * cos t - fst c) * (fst c + q * cos t - fst c) + (snd c + q * sin t - snd c) * (snd c + q * sin t - snd c)) with (q * q * (cos t * cos t + sin t * sin t)) by ring.
  rewrite Hcs, Rmult_1_r. assert (0 <= u * e <= e) by nra. assert (r <= q <= r * (1 + e)) by (unfold q; nra). nra.
Qed.

(** ** Ball and sphere *)
Lemma cube_point_in r dim rand pos : in_unit rand -> 0 <= r ->
  length (cube_point r dim rand pos) = dim /\ forall x, In x (cube_point r dim rand pos) -> - (r / 2) <= x <= r / 2.
Proof.
  intros Hu Hr. unfold cube_point. split; [rewrite map_length, seq_length; auto|]. intros x Hx. apply in_map_iff in Hx. destruct Hx as (d & <- & _).
  pose proof (Hu (pos + d)%nat). nra.
Qed.

Lemma sum_sq_bound v h : (forall x, In x v -> - h <= x <= h) -> sum_sq v <= INR (length v) * (h * h).
Proof.
  induction v as [|x v IH]; intros H; [cbn; lra|]. cbn [sum_sq fold_right]. fold (sum_sq v). change (length (x :: v)) with (S (length v)). rewrite S_INR.
  pose proof (H x ltac:(left; auto)). specialize (IH ltac:(intros y Hy; apply H; right; auto)). assert (0 <= (h - x) * (h + x)) by (apply Rmult_le_pos; lra). nra.
Qed.

Lemma ball_point_aux f r dim rand : forall pos v q, ball_point f r dim rand pos = Ok (v, q) -> in_open_ball dim r v.
Proof.
  induction f as [|f IH]; intros pos v q; cbn [ball_point]; [discriminate|]. destruct (Rlt_dec _ r) as [Hl|_]; [|apply IH].
  intros E. injection E as <- _. pose proof (norm_nonneg (cube_point r dim rand pos)) as Hn. split; [unfold cube_point; rewrite map_length, seq_length; auto|].
  split; [lra|]. rewrite <- norm_sq. nra.
Qed.

Lemma ball_aux f n r dim rand pts : ball f n r dim rand = Ok pts -> length pts = n /\ forall v, In v pts -> in_open_ball dim r v.
Proof.
  unfold ball. assert (G : forall l (st st' : list point * nat), (forall v : point, In v (fst st) -> in_open_ball dim r v) ->
    foldM (fun (st : list point * nat) (_ : nat) => '(v, pos) <- ball_point f r dim rand (snd st) ;; Ok (fst st ++ [v], pos)) l st = Ok st' ->
    (length (fst st') = length (fst st) + length l)%nat /\ forall v, In v (fst st') -> in_open_ball dim r v).
  { induction l as [|x l IH]; intros st st' Hst; cbn [foldM].
    - intros E. injection E as <-. split; [symmetry; apply Nat.add_0_r|auto].
    - destruct (ball_point f r dim rand (snd st)) as [[v q]|] eqn:E; cbn [bind]; [|intros X; discriminate X]. intros E2. apply IH in E2.
      + cbn [fst] in E2. rewrite app_length in E2. cbn [length] in *. split; [lia|tauto].
      + cbn [fst]. intros w Hw. apply in_app_or in Hw. destruct Hw as [Hw|[<-|[]]]; auto. apply (ball_point_aux _ _ _ _ _ _ _ E). }
  destruct (foldM _ _ _) as [[ps q]|] eqn:E; cbn [bind]; [|intros X; discriminate X]. intros E'. injection E' as <-.
  apply G in E; [|intros v []]. cbn [fst] in E. rewrite seq_length in E. exact E.
Qed.

Lemma ball_first_try r dim rand pos f : in_unit rand -> 0 < r -> (dim <= 3)%nat ->
  ball_point (S f) r dim rand pos = Ok (cube_point r dim rand pos, (pos + dim)%nat).
Proof.
  intros Hu Hr Hd. cbn [ball_point]. destruct (Rlt_dec _ r) as [|Hn]; [reflexivity|]. exfalso. apply Hn.
  assert (Hr' : 0 <= r) by (apply Rlt_le; exact Hr). destruct (cube_point_in r dim rand pos Hu Hr') as [L B]. pose proof (sum_sq_bound _ _ B) as S. rewrite L in S.
  rewrite norm_sum. apply Rlt_le_trans with (sqrt (r * r)); [|rewrite sqrt_square; lra]. apply sqrt_lt_1; [apply sum_sq_nonneg|nra|].
  assert (INR dim <= 3). { replace 3 with (INR 3) by (cbn; ring). apply le_INR. auto. } pose proof (pos_INR dim). nra.
Qed.

Lemma ball_total_aux f n r dim rand : in_unit rand -> 0 < r -> (dim <= 3)%nat -> exists pts, ball (S f) n r dim rand = Ok pts.
Proof.
  intros Hu Hr Hd. unfold ball. assert (G : forall l (st : list point * nat), exists st', foldM (fun (st : list point * nat) (_ : nat) => '(v, pos) <- ball_point (S f) r dim rand (snd st) ;; Ok (fst st ++ [v], pos)) l st = Ok st').
  { induction l as [|x l IH]; intros st; cbn [foldM]; [eexists; reflexivity|]. rewrite ball_first_try by auto. cbn [bind]. apply IH. }
  destruct (G (seq 0 n) ([], 0%nat)) as ([ps q] & ->). cbn [bind]. eexists. reflexivity.
Qed.

Lemma ball_never_aux f n r dim rand : r <= 0 -> (0 < n)%nat -> ball f n r dim rand = Err OutOfFuel.
Proof.
  intros Hr Hn. assert (G : forall pos, ball_point f r dim rand pos = Err OutOfFuel).
  { induction f as [|f IH]; intros pos; cbn [ball_point]; auto. destruct (Rlt_dec _ r) as [Hl|_]; [|apply IH]. exfalso. pose proof (norm_nonneg (cube_point r dim rand pos)). lra. }
  unfold ball. destruct n as [|n]; [lia|]. cbn [seq foldM snd]. rewrite G. reflexivity.
Qed.

Lemma ball_dim4_aux f n : (0 < n)%nat -> ball f n 1 4 (fun _ => 0) = Err OutOfFuel.
Proof.
  intros Hn. assert (G : forall pos, ball_point f 1 4 (fun _ => 0) pos = Err OutOfFuel).
  { induction f as [|f IH]; intros pos; cbn [ball_point]; auto. destruct (Rlt_dec _ 1) as [Hl|_]; [|apply IH]. exfalso. 
    pose proof (norm_nonneg (cube_point 1 4 (fun _ => 0) pos)). assert (norm (cube_point 1 4 (fun _ => 0) pos) * norm (cube_point 1 4 (fun _ => 0) pos) = 1).
    { rewrite norm_sq. cbn. field. } nra. }
  unfold ball. destruct n as [|n]; [lia|]. cbn [seq foldM snd]. rewrite G. reflexivity.
Qed.

Lemma sum_sq_scale a v : sum_sq (map (fun x => x * a) v) = a * a * sum_sq v.
Proof. induction v as [|x v IH]; cbn [map sum_sq fold_right]; [ring|]. fold (sum_sq (map (fun x => x * a) v)) (sum_sq v). rewrite IH. ring. Qed.

Lemma nth_map_seq {A} (f : nat -> A) n k d : (k < n)%nat -> nth k (map f (seq 0 n)) d = f k.
Proof.
  intros H. rewrite (nth_indep _ d (f 0%nat)) by (rewrite map_length, seq_length; auto). rewrite map_nth, seq_nth by auto. reflexivity.
Qed.

Lemma sphere_aux n r dim rand : length (random_sphere n r dim rand) = n /\
  forall k v, (k < n)%nat -> nth k (random_sphere n r dim rand) [] = v ->
  ((exists d, (d < dim)%nat /\ (rand (k * dim + d)%nat - / 2) * r <> 0) -> exists w, v = map Some w /\ on_sphere dim 1 w) /\
  ((forall d, (d < dim)%nat -> (rand (k * dim + d)%nat - / 2) * r = 0) -> v = repeat None dim).
Proof.
  unfold random_sphere. split; [rewrite map_length, seq_length; auto|]. intros k v Hk Hv. 
  rewrite nth_map_seq in Hv by auto. cbn beta zeta in Hv. set (u := cube_point r dim rand (k * dim)) in *.
  assert (Lu : length u = dim) by (unfold u, cube_point; rewrite map_length, seq_length; auto). split.
  - intros (d & Hd & Hne). assert (Hin : In ((rand (k * dim + d)%nat - / 2) * r) u) by (unfold u, cube_point; apply in_map_iff; exists d; split; auto; apply in_seq; lia).
    assert (Hpos : 0 < sum_sq u).
    { clear -Hin Hne. induction u as [|x u IH]; [destruct Hin|]. cbn [sum_sq fold_right]. fold (sum_sq u). pose proof (sum_sq_nonneg u). destruct Hin as [->|Hin]; [|specialize (IH Hin); nra].
      set (y := (rand (k * dim + d)%nat - / 2) * r) in *. assert (0 < y * y) by nra. lra. }
    assert (Hn : norm u <> 0). { intros E. pose proof (norm_sq u). rewrite E in H. lra. }
    exists (map (fun x => x * / norm u) u). split.
    + rewrite <- Hv, map_map. apply map_ext. intros x. unfold fdiv. destruct (Req_EM_T (norm u) 0); [contradiction|reflexivity].
    + split; [rewrite map_length; auto|]. split; [lra|]. rewrite sum_sq_scale, <- norm_sq. field. auto.
  - intros H. assert (Hz : forall x, In x u -> x = 0). { intros x Hx. unfold u, cube_point in Hx. apply in_map_iff in Hx. destruct Hx as (d & <- & Hd). apply in_seq in Hd. apply H. lia. }
    assert (Hs : sum_sq u = 0). { clear -Hz. induction u as [|x u IH]; cbn [sum_sq fold_right]; auto. fold (sum_sq u). rewrite IH, (Hz x) by (intros; try apply Hz; cbn; auto). ring. }
    rewrite <- Hv. rewrite norm_sum, Hs, sqrt_0. rewrite <- Lu. clear. induction u as [|x u IH]; cbn; auto. f_equal; auto. unfold fdiv. destruct (Req_EM_T 0 0); [auto|contradiction].
Qed.

(** ** Cube and grids *)
Lemma random_cube_aux n dim rand : in_unit rand -> length (random_cube n dim rand) = n /\ forall v, In v (random_cube n dim rand) -> in_cube dim (/ 2) v.
Proof.
  intros Hu. unfold random_cube. split; [rewrite map_length, seq_length; auto|]. intros v Hv. apply in_map_iff in Hv. destruct Hv as (k & <- & _).
  split; [rewrite map_length, seq_length; auto|]. intros x Hx. apply in_map_iff in Hx. destruct Hx as (d & <- & _). pose proof (Hu (k * dim + d)%nat). lra.
Qed.

Lemma flat_map_len {A B} (f : A -> list B) l c : (forall x, In x l -> length (f x) = c) -> length (flat_map f l) = (length l * c)%nat.
Proof. induction l as [|x l IH]; intros H; cbn; auto. rewrite app_length, IH, (H x) by (intros; try apply H; cbn; auto). lia. Qed.

Lemma NoDup_flat_map {A B} (f : A -> list B) l : NoDup l -> (forall x, In x l -> NoDup (f x)) -> (forall x y z, In x l -> In y l -> In z (f x) -> In z (f y) -> x = y) -> NoDup (flat_map f l).
Proof.
  induction l as [|x l IH]; intros Hl Hf Hd; cbn; [constructor|]. inversion Hl as [|? ? Hx Hl']; subst.
  assert (NoDup (flat_map f l)). { apply IH; auto. - intros; apply Hf; right; auto. - intros a b z Ha Hb; apply Hd; right; auto. }
  assert (Hdis : forall z, In z (f x) -> ~ In z (flat_map f l)).
  { intros z Hz X. apply in_flat_map in X. destruct X as (y & Hy & Hz'). assert (x = y) by (apply (Hd x y z); auto; [left; auto|right; auto]). subst. contradiction. }
  specialize (Hf x ltac:(left; auto)). revert Hf Hdis. generalize (f x) as g. induction g as [|z g IHg]; intros Hg Hdis; cbn; auto.
  inversion Hg; subst. constructor.
  - intros X. apply in_app_or in X. destruct X; [contradiction|]. apply (Hdis z); [left; auto|auto].
  - apply IHg; auto. intros w Hw. apply Hdis. right. auto.
Qed.

Lemma NoDup_map_inj {A B} (f : A -> B) l : NoDup l -> (forall x y, f x = f y -> x = y) -> NoDup (map f l).
Proof. intros H Hi. induction H as [|x l Hx Hl IH]; cbn; constructor; auto. intros X. apply in_map_iff in X. destruct X as (y & E & Hy). apply Hi in E. subst. contradiction. Qed.

Lemma grid_aux h w : length (grid h w) = (h * w)%nat /\ NoDup (grid h w) /\
  forall v, In v (grid h w) <-> exists i j, (i < h)%nat /\ (j < w)%nat /\ v = [INR i - (INR h - 1) / 2; INR j - (INR w - 1) / 2].
Proof.
  unfold grid. split; [|split].
  - rewrite (flat_map_len _ _ w), seq_length; auto. intros i _. rewrite map_length, seq_length. auto.
  - apply NoDup_flat_map; [apply seq_NoDup| |].
    + intros i _. apply NoDup_map_inj; [apply seq_NoDup|]. intros a b E. injection E as E. apply INR_eq. lra.
    + intros i j z _ _ Hi Hj. apply in_map_iff in Hi, Hj. destruct Hi as (a & <- & _), Hj as (b & E & _). injection E as E _. apply INR_eq. lra.
  - intros v. rewrite in_flat_map. split.
    + intros (i & Hi & Hv). apply in_map_iff in Hv. destruct Hv as (j & <- & Hj). apply in_seq in Hi, Hj. exists i, j. split; [lia|]. split; [lia|]. f_equal; [field|f_equal; field].
    + intros (i & j & Hi & Hj & ->). exists i. split; [apply in_seq; lia|]. apply in_map_iff. exists j. split; [f_equal; [field|f_equal; field]|apply in_seq; lia].
Qed.

Lemma grid3_aux h w d : length (grid_tridimensional h w d) = (h * w * d)%nat /\ NoDup (grid_tridimensional h w d) /\
  forall v, In v (grid_tridimensional h w d) <-> exists i j k, (i < h)%nat /\ (j < w)%nat /\ (k < d)%nat /\
    v = [INR i - (INR h - 1) / 2; INR j - (INR w - 1) / 2; INR k - (INR d - 1) / 2].
Proof.
  unfold grid_tridimensional. split; [|split].
  - rewrite (flat_map_len _ _ (w * d)), seq_length; [lia|]. intros i _. rewrite (flat_map_len _ _ d), seq_length; auto. intros j _. rewrite map_length, seq_length. auto.
  - apply NoDup_flat_map; [apply seq_NoDup| |].
    + intros i _. apply NoDup_flat_map; [apply seq_NoDup| |].
      * intros j _. apply NoDup_map_inj; [apply seq_NoDup|]. intros a b E. injection E as E. apply INR_eq. lra.
      * intros a b z _ _ Hi Hj. apply in_map_iff in Hi, Hj. destruct Hi as (k & <- & _), Hj as (l & E & _). injection E as E _. apply INR_eq. lra.
    + intros a b z _ _ Hi Hj. apply in_flat_map in Hi, Hj. destruct Hi as (j & _ & Hi), Hj as (j' & _ & Hj). apply in_map_iff in Hi, Hj.
      destruct Hi as (k & <- & _), Hj as (l & E & _). injection E as E _ _. apply INR_eq. lra.
  - intros v. rewrite in_flat_map. split.
    + intros (i & Hi & Hv). apply in_flat_map in Hv. destruct Hv as (j & Hj & Hv). apply in_map_iff in Hv. destruct Hv as (k & <- & Hk). apply in_seq in Hi, Hj, Hk.
      exists i, j, k. split; [lia|]. split; [lia|]. split; [lia|]. f_equal; [field|f_equal; [field|f_equal; field]].
    + intros (i & j & k & Hi & Hj & Hk & ->). exists i. split; [apply in_seq; lia|]. apply in_flat_map. exists j. split; [apply in_seq; lia|].
      apply in_map_iff. exists k. split; [f_equal; [field|f_equal; [field|f_equal; field]]|apply in_seq; lia].
Qed.

(** The grids are centred at the origin. *)
Lemma grid_centred_aux h w v : In v (grid h w) -> In (map Ropp v) (grid h w).
Proof.
  destruct (grid_aux h w) as (_ & _ & G). rewrite !G. intros (i & j & Hi & Hj & ->). exists (h - 1 - i)%nat, (w - 1 - j)%nat. split; [lia|]. split; [lia|].
  cbn [map]. rewrite !minus_INR by lia. cbn [INR]. f_equal; [field|f_equal; field].
Qed.

(** ** Torus *)
Lemma torus_aux n r rr rand : 0 <= r -> r <= rr -> exists pts, torus3D n r rr rand = Ok pts /\ length pts = n /\ forall v, In v pts -> on_torus r rr v.
Proof.
  intros H0 Hr. unfold torus3D. destruct (Rgt_dec r rr) as [X|_]; [lra|]. eexists. split; [reflexivity|]. split; [rewrite map_length, seq_length; auto|].
  intros v Hv. apply in_map_iff in Hv. destruct Hv as (k & <- & _). set (t := rand (2 * k)%nat * 2 * PI). set (a := rand (2 * k + 1)%nat * 2 * PI).
  do 3 eexists. split; [reflexivity|]. set (q := rr + r * cos a). pose proof (cs t) as Ht. pose proof (cs a) as Ha. pose proof (COS_bound a) as [B1 B2].
  replace (q * cos t * (q * cos t) + q * sin t * (q * sin t)) with (q * q * (cos t * cos t + sin t * sin t)) by ring. rewrite Ht, Rmult_1_r.
  rewrite sqrt_square; [|unfold q; nra]. unfold q. replace (rr + r * cos a - rr) with (r * cos a) by ring.
  replace (r * cos a * (r * cos a) + r * sin a * (r * sin a)) with (r * r * (cos a * cos a + sin a * sin a)) by ring. rewrite Ha. ring.
Qed.
Lemma torus_error_aux n r rr rand : rr < r -> torus3D n r rr rand = Err ValueError.
Proof. intros H. unfold torus3D. destruct (Rgt_dec r rr) as [|X]; [reflexivity|lra]. Qed.

(** The points of [ball] are those of a cube of side [r]. *)
Lemma ball_point_small f r dim rand : in_unit rand -> 0 <= r -> forall pos v q, ball_point f r dim rand pos = Ok (v, q) -> forall x, In x v -> - (r / 2) <= x <= r / 2.
Proof.
  intros Hu Hr. induction f as [|f IH]; intros pos v q; cbn [ball_point]; [discriminate|]. destruct (Rlt_dec _ r) as [_|_]; [|apply IH].
  intros E. injection E as <- _. apply cube_point_in; auto.
Qed.
Lemma ball_small_aux f n r dim rand pts : in_unit rand -> ball f n r dim rand = Ok pts -> forall v, In v pts -> forall x, In x v -> - (r / 2) <= x <= r / 2.
Proof.
  intros Hu E0. destruct (Rle_dec r 0) as [Hr|Hr].
  { destruct n as [|n]; [cbn in E0; injection E0 as <-; intros v []|]. rewrite ball_never_aux in E0 by (auto; lia). discriminate. }
  assert (Hr' : 0 <= r) by (apply Rlt_le, Rnot_le_lt; exact Hr). revert E0. unfold ball. assert (G : forall l (st st' : list point * nat), (forall v : point, In v (fst st) -> forall x, In x v -> - (r / 2) <= x <= r / 2) ->
    foldM (fun (st : list point * nat) (_ : nat) => '(v, pos) <- ball_point f r dim rand (snd st) ;; Ok (fst st ++ [v], pos)) l st = Ok st' ->
    forall v, In v (fst st') -> forall x, In x v -> - (r / 2) <= x <= r / 2).
  { induction l as [|x l IH]; intros st st' Hst; cbn [foldM].
    - intros E. injection E as <-. auto.
    - destruct (ball_point f r dim rand (snd st)) as [[v q]|] eqn:E; cbn [bind]; [|intros X; discriminate X]. apply IH.
      cbn [fst]. intros w Hw. apply in_app_or in Hw. destruct Hw as [Hw|[<-|[]]]; [exact (Hst w Hw)|]. apply (ball_point_small _ _ _ _ Hu Hr' _ _ _ E). }
  destruct (foldM _ _ _) as [[ps q]|] eqn:E; cbn [bind]; [|intros X; discriminate X]. intros E'. injection E' as <-.
  refine (G _ _ _ _ E). intros v [].
Qed.

Lemma grid3_centred_aux h w d v : In v (grid_tridimensional h w d) -> In (map Ropp v) (grid_tridimensional h w d).
Proof.
  destruct (grid3_aux h w d) as (_ & _ & G). rewrite !G. intros (i & j & k & Hi & Hj & Hk & ->). exists (h - 1 - i)%nat, (w - 1 - j)%nat, (d - 1 - k)%nat.
  split; [lia|]. split; [lia|]. split; [lia|]. cbn [map]. rewrite !minus_INR by lia. cbn [INR]. f_equal; [field|f_equal; [field|f_equal; field]].
Qed.

(** Witnesses against the docstrings of [random_sphere]. *)
Lemma sphere_radius_aux : exists r rand, in_unit rand /\ 0 < r /\ random_sphere 1 r 1 rand = [[Some (-1)]] /\ ~ on_sphere 1 r [-1].
Proof.
  exists 2, (fun _ => 0). split; [intros n; lra|]. split; [lra|]. split.
  - assert (E : cube_point 2 1 (fun _ => 0) (0 * 1) = [-1]) by (cbn; f_equal; field). unfold random_sphere. cbn [seq map]. rewrite E.
    assert (N : norm [-1] = 1) by (unfold norm; cbn [fold_right]; replace (-1 * -1 + 0) with (1 * 1) by ring; apply sqrt_square; lra).
    rewrite N. cbn [map]. unfold fdiv. destruct (Req_EM_T 1 0); [lra|]. do 3 f_equal. field.
  - intros (_ & _ & H). cbn in H. lra.
Qed.
