(* C109: the geometric state is the true state at the moment the light left the object. *)
From Verif Require Import Vec3 TransformModel TransformSpec TransformProofs SpectralModel MotionModel.
From Coq Require Import String.
Open Scope R_scope.

(* Specification.  The true position of an object as a function of time is what TRUE_STATE reports. *)
Definition true_state (eps : R) (e : ephemeris) (chain : list mnode) (epoch : R) (f : R -> transform) : Prop :=
  forall t observer, apparent_transform eps e chain TrueState epoch t observer = Ok (f t).
Definition no_faster (x : R -> vec3) (v : R) : Prop := forall s t, vlen (vsub (x s) (x t)) <= v * Rabs (s - t).
(* light that reaches the point o at time t left the moving point x at time t - tau *)
Definition left_before (x : R -> vec3) (o : vec3) (t tau : R) : Prop := 0 <= tau /\ SPEED_OF_LIGHT * tau = vlen (vsub o (x (t - tau))).

Lemma c_pos : 0 < SPEED_OF_LIGHT. Proof. unfold SPEED_OF_LIGHT; lra. Qed.
Lemma vlen_nonneg v : 0 <= vlen v. Proof. apply sqrt_pos. Qed.
Lemma vlen_sq v : vlen v * vlen v = dot v v. Proof. apply sqrt_sqrt, dot_pos. Qed.
Lemma cauchy u v : dot u v <= vlen u * vlen v.
Proof.
  apply Rnot_lt_le; intros H. pose proof (vlen_nonneg u); pose proof (vlen_nonneg v).
  assert (L : dot u v * dot u v <= dot u u * dot v v). { pose proof (lagrange u v). pose proof (dot_pos (cross u v)). lra. }
  rewrite <- (vlen_sq u), <- (vlen_sq v) in L. assert (0 <= vlen u * vlen v) by nra. set (q := vlen u * vlen v) in *. replace (vlen u * vlen u * (vlen v * vlen v)) with (q * q) in L by (unfold q; ring). nra.
Qed.
Lemma triangle u v : vlen (vadd u v) <= vlen u + vlen v.
Proof.
  apply Rsqr_incr_0_var; [|pose proof (vlen_nonneg u); pose proof (vlen_nonneg v); lra]. unfold Rsqr. rewrite vlen_sq.
  assert (E : dot (vadd u v) (vadd u v) = dot u u + 2 * dot u v + dot v v) by (unfold dot; cbn; ring). rewrite E. pose proof (cauchy u v). pose proof (vlen_sq u). pose proof (vlen_sq v). nra.
Qed.
Lemma vsub_swap a b : vlen (vsub a b) = vlen (vsub b a). Proof. unfold vlen. f_equal. unfold dot; cbn; ring. Qed.
Lemma len_lip o a b : Rabs (vlen (vsub o a) - vlen (vsub o b)) <= vlen (vsub a b).
Proof.
  assert (P : forall a b, vlen (vsub o a) <= vlen (vsub o b) + vlen (vsub a b)).
  { intros p q. rewrite (vsub_swap p q). replace (vsub o p) with (vadd (vsub o q) (vsub q p)) by (apply v3_eq; cbn; ring). apply triangle. }
  pose proof (P a b). pose proof (P b a) as Q. rewrite (vsub_swap b a) in Q. apply Rabs_le. lra.
Qed.

Section fixed_point.
  Variables (x : R -> vec3) (v : R) (o : vec3) (t : R).
  Hypothesis NF : no_faster x v.
  Hypothesis V : 0 <= v < SPEED_OF_LIGHT.
  Let beta := v / SPEED_OF_LIGHT.
  Let g (d : R) : R := vlen (vsub o (x (t - d))) / SPEED_OF_LIGHT.
  Lemma beta_lt : 0 <= beta < 1.
  Proof. pose proof c_pos. unfold beta. split; [apply Rmult_le_pos; [lra|apply Rlt_le, Rinv_0_lt_compat; lra]|]. apply (Rmult_lt_reg_r SPEED_OF_LIGHT); [lra|]. unfold Rdiv. rewrite Rmult_assoc, Rinv_l; lra. Qed.
  Lemma g_lip a b : Rabs (g a - g b) <= beta * Rabs (a - b).
  Proof.
    unfold g, beta. pose proof c_pos. replace (_ / _ - _ / _) with ((vlen (vsub o (x (t - a))) - vlen (vsub o (x (t - b)))) / SPEED_OF_LIGHT) by (field; lra).
    unfold Rdiv. rewrite Rabs_mult, (Rabs_pos_eq (/ SPEED_OF_LIGHT)) by (apply Rlt_le, Rinv_0_lt_compat; lra).
    replace (v * / SPEED_OF_LIGHT * Rabs (a - b)) with (v * Rabs (a - b) * / SPEED_OF_LIGHT) by ring. apply Rmult_le_compat_r; [apply Rlt_le, Rinv_0_lt_compat; lra|].
    eapply Rle_trans; [apply len_lip|]. eapply Rle_trans; [apply NF|]. replace (t - a - (t - b)) with (- (a - b)) by ring. rewrite Rabs_Ropp. lra.
  Qed.
  Lemma g_nonneg a : 0 <= g a.
  Proof. unfold g. apply Rmult_le_pos; [apply vlen_nonneg|apply Rlt_le, Rinv_0_lt_compat, c_pos]. Qed.
  Lemma left_g tau : left_before x o t tau <-> g tau = tau.
  Proof.
    unfold left_before, g. pose proof c_pos. split.
    - intros (_ & E). rewrite <- E. field. lra.
    - intros E. split; [rewrite <- E; apply g_nonneg|]. rewrite <- E at 1. field. lra.
  Qed.
  Lemma left_unique a b : left_before x o t a -> left_before x o t b -> a = b.
  Proof.
    rewrite !left_g. intros A B. pose proof (g_lip a b) as L. rewrite A, B in L. pose proof beta_lt. destruct (Req_dec a b); auto. pose proof (Rabs_pos_lt (a - b) ltac:(lra)). nra.
  Qed.
  Lemma left_exists : exists tau, left_before x o t tau.
  Proof.
    pose proof beta_lt as B. set (h := fun d => d - g d). set (M := g 0 / (1 - beta)).
    assert (M0 : 0 <= M). { unfold M. apply Rmult_le_pos; [apply g_nonneg|apply Rlt_le, Rinv_0_lt_compat; lra]. }
    assert (C : continuity h).
    { intros a ep He. exists (ep / 2). split; [lra|]. intros b (_ & Hb). unfold dist in *. cbn in *. unfold R_dist in *. unfold h.
      replace (b - g b - (a - g a)) with ((b - a) - (g b - g a)) by ring. eapply Rle_lt_trans; [apply Rabs_triang|]. rewrite Rabs_Ropp. pose proof (g_lip b a). pose proof (Rabs_pos (b - a)). nra. }
    assert (H0 : h 0 <= 0). { unfold h. pose proof (g_nonneg 0). lra. }
    assert (HM : 0 <= h M).
    { unfold h. pose proof (g_lip M 0) as L. rewrite Rminus_0_r, (Rabs_pos_eq M) in L by auto. pose proof (Rle_abs (g M - g 0)).
      assert (E : M = g 0 + beta * M) by (unfold M; field; lra). lra. }
    destruct (IVT_cor h 0 M C M0 ltac:(nra)) as (z & Z1 & Z2). exists z. apply left_g. unfold h in Z2. lra.
  Qed.
  (* the loop, with the start value d = g of something at distance D of the solution *)
  Variables (ssb : R -> outcome transform) (f : R -> transform) (tol tau : R).
  Hypothesis SSB : forall d, ssb d = Ok (f (t - d)).
  Hypothesis FX : forall s, t_pos (f s) = x s.
  Hypothesis TAU : left_before x o t tau.
  Lemma loop_ok k : forall st d D, Rabs (d - tau) <= D -> exists st' d', light_time_loop ssb o tol (S k) st d = Ok (st', g d') /\ st' = f (t - d') /\ (Rabs (d' - tau) <= tol / (1 - beta) \/ Rabs (d' - tau) <= beta ^ k * D).
  Proof.
    pose proof beta_lt as B. assert (T : g tau = tau) by (apply left_g; auto).
    induction k as [|k IH]; intros st d D HD.
    - cbn. rewrite SSB. cbn [obind]. rewrite FX. change (vlen (vsub o (x (t - d))) / SPEED_OF_LIGHT) with (g d). exists (f (t - d)), d. destruct (Rltb _ _); (split; [reflexivity|split; [reflexivity|right; lra]]).
    - change (light_time_loop ssb o tol (S (S k)) st d) with (obind (ssb d) (fun st => let new_dt := vlen (vsub o (t_pos st)) / SPEED_OF_LIGHT in
        if Rltb (Rabs (new_dt - d)) tol then Ok (st, new_dt) else light_time_loop ssb o tol (S k) st new_dt)).
      rewrite SSB. cbn [obind]. cbv zeta. rewrite FX. change (vlen (vsub o (x (t - d))) / SPEED_OF_LIGHT) with (g d). destruct (Rltb (Rabs (g d - d)) tol) eqn:E.
      + rb. exists (f (t - d)), d. split; [reflexivity|split; [reflexivity|left]].
        pose proof (g_lip d tau) as L. rewrite T in L. assert (Rabs (d - tau) <= Rabs (g d - d) + Rabs (g d - tau)).
        { replace (d - tau) with (- (g d - d) + (g d - tau)) by ring. eapply Rle_trans; [apply Rabs_triang|]. rewrite Rabs_Ropp. lra. }
        apply (Rmult_le_reg_r (1 - beta)); [lra|]. unfold Rdiv. rewrite Rmult_assoc, Rinv_l by lra. nra.
      + assert (L : Rabs (g d - tau) <= beta * D). { pose proof (g_lip d tau) as L. rewrite T in L. pose proof (Rabs_pos (d - tau)). nra. }
        destruct (IH (f (t - d)) (g d) (beta * D) L) as (st' & d' & E1 & E2 & E3). exists st', d'. split; [exact E1|split; [exact E2|]]. destruct E3 as [H|H]; [left; auto|right]. cbn [pow]. eapply Rle_trans; [exact H|]. apply Req_le. ring.
  Qed.
End fixed_point.

Lemma mul_outcome_dt eps e chain epoch t dt : ssb_transform eps e chain epoch t dt = ssb_transform eps e chain epoch (t - dt) 0.
Proof.
  induction chain as [|n up IH]; [reflexivity|]. cbn [ssb_transform]. rewrite IH. replace (t - dt - 0) with (t - dt) by ring.
  unfold local_state, local_rotation_at, local_position_at. replace (t - dt - 0) with (t - dt) by ring. reflexivity.
Qed.

(* The equation of light time has exactly one solution tau, and GEOMETRIC_STATE is the true state of the object at time t - d for a d that is within
   the tolerance of tau, or within (v/c)^10 of tau relative to it (ten rounds of iteration). *)
Theorem C109_light_time : forall eps e chain epoch f v t observer, true_state eps e chain epoch f -> no_faster (fun s => t_pos (f s)) v -> 0 <= v < SPEED_OF_LIGHT ->
  exists tau, left_before (fun s => t_pos (f s)) (t_pos observer) t tau /\ (forall tau', left_before (fun s => t_pos (f s)) (t_pos observer) t tau' -> tau' = tau) /\
  exists d, apparent_transform eps e chain Geometric epoch t observer = Ok (f (t - d)) /\
    Rabs (d - tau) <= Rmax (/ 10 ^ 12 / (1 - v / SPEED_OF_LIGHT)) ((v / SPEED_OF_LIGHT) ^ 10 * tau).
Proof.
  intros eps e chain epoch f v t observer TS NF V. set (x := fun s => t_pos (f s)) in *. set (o := t_pos observer).
  destruct (left_exists x v o t NF V) as (tau & HT). exists tau. split; auto. split; [intros tau' H'; eapply left_unique; eauto|].
  assert (SSB : forall d, ssb_transform eps e chain epoch t d = Ok (f (t - d))).
  { intros d. rewrite mul_outcome_dt. specialize (TS (t - d) observer). unfold apparent_transform, geometric_state in TS. destruct (ssb_transform eps e chain epoch (t - d) 0); cbn in TS; congruence. }
  unfold apparent_transform, geometric_state. fold o. rewrite SSB. cbn [obind]. rewrite Rminus_0_r.
  set (beta := v / SPEED_OF_LIGHT). pose proof (beta_lt v V) as B. fold beta in B.
  assert (D0 : Rabs (vlen (vsub o (t_pos (f t))) / SPEED_OF_LIGHT - tau) <= beta * tau).
  { pose proof (g_lip x v o t NF V 0 tau) as L. cbv beta in L. rewrite Rminus_0_r in L. fold beta in L. assert (T : vlen (vsub o (x (t - tau))) / SPEED_OF_LIGHT = tau) by (eapply left_g; eauto). rewrite T in L.
    destruct HT as (T0 & _). rewrite Rminus_0_l, Rabs_Ropp, (Rabs_pos_eq tau) in L by auto. exact L. }
  destruct (loop_ok x v o t NF V (ssb_transform eps e chain epoch t) f (/ 10 ^ 12) tau SSB (fun s => eq_refl) HT 9 (f t) _ _ D0) as (st' & d' & E1 & E2 & E3).
  exists d'. rewrite E1. cbn [obind fst]. split; [congruence|]. fold beta in E3. destruct E3 as [H|H]; [eapply Rle_trans; [exact H|apply Rmax_l]|].
  eapply Rle_trans; [exact H|]. eapply Rle_trans; [|apply Rmax_r]. apply Req_le. cbn [pow]. ring.
Qed.
(* Where it was: the reported position is that close to where the object was when the light left *)
Theorem C109_position : forall eps e chain epoch f v t observer tau st, true_state eps e chain epoch f -> no_faster (fun s => t_pos (f s)) v -> 0 <= v < SPEED_OF_LIGHT ->
  left_before (fun s => t_pos (f s)) (t_pos observer) t tau -> apparent_transform eps e chain Geometric epoch t observer = Ok st ->
  vlen (vsub (t_pos st) (t_pos (f (t - tau)))) <= v * Rmax (/ 10 ^ 12 / (1 - v / SPEED_OF_LIGHT)) ((v / SPEED_OF_LIGHT) ^ 10 * tau).
Proof.
  intros eps e chain epoch f v t observer tau st TS NF V HT E. destruct (C109_light_time eps e chain epoch f v t observer TS NF V) as (tau' & _ & U & d & E' & B). rewrite <- (U tau HT) in B.
  rewrite E in E'. injection E' as ->. eapply Rle_trans; [apply NF|]. replace (t - d - (t - tau)) with (- (d - tau)) by ring. rewrite Rabs_Ropp. apply Rmult_le_compat_l; [lra|exact B].
Qed.
(* an object at rest is seen where it is, at all times *)
Theorem C109_at_rest : forall eps e chain epoch f t observer, true_state eps e chain epoch f -> (forall s, t_pos (f s) = t_pos (f t)) ->
  exists st, apparent_transform eps e chain Geometric epoch t observer = Ok st /\ t_pos st = t_pos (f t).
Proof.
  intros eps e chain epoch f t observer TS RS. pose proof c_pos. destruct (C109_light_time eps e chain epoch f 0 t observer TS) as (tau & _ & _ & d & E & _); [|lra|].
  - intros a b. rewrite (RS a), (RS b). unfold vlen, dot; cbn. rewrite !Rminus_diag_eq by auto. replace (0 * 0 + 0 * 0 + 0 * 0) with 0 by ring. rewrite sqrt_0. lra.
  - exists (f (t - d)). split; auto.
Qed.
Print Assumptions C109_light_time.
Print Assumptions C109_position.
Print Assumptions C109_at_rest.
