(* Proofs about the root finders of trajectory arcs. *)
From Verif Require Import Vec3 ArcModel ArcSpec.

Lemma reps_pos : 0 < reps. Proof. unfold reps; lra. Qed.
Lemma near_refl : forall x, near x x.
Proof. intros. unfold near. rewrite Rminus_diag_eq, Rabs_R0 by auto. pose proof reps_pos; lra. Qed.
Lemma near_sym : forall x y, near x y -> near y x.
Proof. unfold near. intros. rewrite Rabs_minus_sym. auto. Qed.

Lemma clampR_id : forall t lo hi, lo <= t <= hi -> clampR t lo hi = t.
Proof. intros. unfold clampR. destruct (Rltb t lo) eqn:E; rb; [lra|]. destruct (Rltb hi t) eqn:E2; rb; lra. Qed.
Lemma clampR_ok : forall t lo hi, lo <= hi -> lo - reps <= t <= hi + reps ->
  lo <= clampR t lo hi <= hi /\ near (clampR t lo hi) t.
Proof.
  intros t lo hi H R. unfold clampR, near. pose proof reps_pos.
  destruct (Rltb t lo) eqn:E; rb.
  - split; [lra|]. apply Rabs_le. lra.
  - destruct (Rltb hi t) eqn:E2; rb; (split; [lra|]); apply Rabs_le; lra.
Qed.

Lemma in_range_iff : forall t lo hi,
  (Rleb (lo - reps) t && Rleb t (hi + reps))%bool = true <-> lo - reps <= t <= hi + reps.
Proof. intros. rewrite andb_true_iff, !Rleb_true. tauto. Qed.

Lemma keep_in : forall x t lo hi, lo <= hi -> In x (keep t lo hi) -> lo <= x <= hi /\ near x t.
Proof.
  intros x t lo hi H. unfold keep.
  destruct (Rleb (lo - reps) t && Rleb t (hi + reps))%bool eqn:E; cbn; [|tauto].
  apply in_range_iff in E. intros [<-|[]]. apply clampR_ok; auto.
Qed.
Lemma keep_has : forall t lo hi, lo <= t <= hi -> In t (keep t lo hi).
Proof.
  intros t lo hi H. unfold keep. pose proof reps_pos.
  destruct (Rleb (lo - reps) t && Rleb t (hi + reps))%bool eqn:E.
  - rewrite clampR_id by auto. left; auto.
  - assert (lo - reps <= t <= hi + reps) as Q by lra. apply in_range_iff in Q. congruence.
Qed.
Lemma keep2_in : forall x l t lo hi, lo <= hi -> In x (keep2 l t lo hi) ->
  In x l \/ lo <= x <= hi /\ near x t.
Proof.
  intros x l t lo hi H. unfold keep2.
  destruct (Rleb (lo - reps) t && Rleb t (hi + reps))%bool eqn:E; [|tauto].
  apply in_range_iff in E.
  assert (In x (l ++ [clampR t lo hi]) -> In x l \/ lo <= x <= hi /\ near x t) as Q.
  { intros Hx. apply in_app_or in Hx as [Hx|[<-|[]]]; auto. right. apply clampR_ok; auto. }
  destruct (rev l) as [|z zs]; auto. destruct (Rltb reps (Rabs (t - z))); auto.
Qed.
Lemma keep2_old : forall x l t lo hi, In x l -> In x (keep2 l t lo hi).
Proof.
  intros. unfold keep2. destruct (Rleb (lo - reps) t && Rleb t (hi + reps))%bool; auto.
  destruct (rev l); [apply in_or_app; auto|]. destruct (Rltb _ _); auto. apply in_or_app; auto.
Qed.
Lemma keep2_has : forall l t lo hi, lo <= t <= hi -> exists x, In x (keep2 l t lo hi) /\ near x t.
Proof.
  intros l t lo hi H. unfold keep2. pose proof reps_pos.
  destruct (Rleb (lo - reps) t && Rleb t (hi + reps))%bool eqn:E.
  - rewrite clampR_id by auto. destruct (rev l) as [|z zs] eqn:Er.
    + exists t. split; [apply in_or_app; right; left; auto | apply near_refl].
    + destruct (Rltb reps (Rabs (t - z))) eqn:E2; rb.
      * exists t. split; [apply in_or_app; right; left; auto | apply near_refl].
      * exists z. split.
        { apply in_rev. rewrite Er. left; auto. }
        apply near_sym. exact E2.
  - assert (lo - reps <= t <= hi + reps) as Q by lra. apply in_range_iff in Q. congruence.
Qed.

Lemma solve_linear_ok : forall a b lo hi, lo <= hi -> reps <= Rabs a ->
  finds_roots (fun t => a * t + b) lo hi (solve_linear a b lo hi).
Proof.
  intros a b lo hi H Ha. unfold solve_linear.
  destruct (Rltb (Rabs a) reps) eqn:E; rb; [lra|].
  assert (a <> 0). { intros ->. rewrite Rabs_R0 in Ha. pose proof reps_pos; lra. }
  split.
  - intros x Hx. apply keep_in in Hx as [R1 R2]; auto. split; auto. exists (- b / a). split; auto. field; auto.
  - intros r Hr Hz. exists r. split; [|apply near_refl].
    replace (- b / a) with r; [apply keep_has; auto|]. apply Rmult_eq_reg_l with a; auto. field_simplify; auto. lra.
Qed.

(* two exact roots *)
Lemma two_roots_ok : forall (f : R -> R) t1 t2 lo hi, lo <= hi -> f t1 = 0 -> f t2 = 0 ->
  (forall t, f t = 0 -> t = t1 \/ t = t2) ->
  finds_roots f lo hi (keep2 (keep t1 lo hi) t2 lo hi).
Proof.
  intros f t1 t2 lo hi H H1 H2 Hall. split.
  - intros x Hx. apply keep2_in in Hx as [Hx|[R1 R2]]; auto.
    + apply keep_in in Hx as [R1 R2]; auto. split; eauto.
    + split; eauto.
  - intros r Hr Hz. destruct (Hall r Hz) as [->| ->].
    + exists t1. split; [|apply near_refl]. apply keep2_old, keep_has; auto.
    + apply keep2_has; auto.
Qed.

Lemma copysign_sq : forall s b, copysign s b * copysign s b = s * s.
Proof. intros. unfold copysign. destruct (Rltb b 0); ring. Qed.

Lemma solve_quadratic_ok : forall a b c lo hi, lo <= hi -> reps <= Rabs a ->
  b * b - 4 * a * c < 0 \/ reps <= b * b - 4 * a * c ->
  finds_roots (quadratic a b c) lo hi (solve_quadratic a b c lo hi).
Proof.
  intros a b c lo hi H Ha Hd. unfold solve_quadratic.
  destruct (Rltb (Rabs a) reps) eqn:E; rb; [lra|].
  assert (Ha0 : a <> 0). { intros ->. rewrite Rabs_R0 in Ha. pose proof reps_pos; lra. }
  destruct (Rltb (b * b - 4 * a * c) 0) eqn:E1; rb.
  { split; [intros x []|]. intros r Hr Hz. exfalso. unfold quadratic in Hz.
    assert (0 <= (2 * a * r + b) * (2 * a * r + b)) by apply Rle_0_sqr.
    assert ((2 * a * r + b) * (2 * a * r + b) = 4 * a * (a * (r * r) + b * r + c) + (b * b - 4 * a * c)) by ring.
    rewrite Hz in H1. lra. }
  destruct Hd as [Hd|Hd]; [lra|].
  destruct (Rltb (b * b - 4 * a * c) reps) eqn:E2; rb; [lra|].
  assert (exists s, s = sqrt (b * b - 4 * a * c)) as (s & Es) by eauto. rewrite <- Es.
  assert (Hs : s * s = b * b - 4 * a * c) by (rewrite Es; apply sqrt_sqrt; auto).
  assert (Hs0 : 0 < s). { rewrite Es. apply sqrt_lt_R0. pose proof reps_pos; lra. }
  assert (exists w, w = copysign s b) as (w & Ew) by eauto. rewrite <- Ew.
  assert (Hw : w * w = b * b - 4 * a * c) by (rewrite Ew, copysign_sq; auto).
  assert (Hq0 : - (1 / 2) * (b + w) <> 0).
  { rewrite Ew. unfold copysign. destruct (Rltb b 0) eqn:Eb; rb; lra. }
  clear Ew Es Hs.
  assert (exists q, q = - (1 / 2) * (b + w)) as (q & Eq) by eauto. rewrite <- Eq in *.
  assert (Hq : q * q + b * q + a * c = 0) by (rewrite Eq; lra).
  assert (F : forall t, quadratic a b c t = a * ((t - q / a) * (t - c / q))).
  { intros t. unfold quadratic. replace b with (- (q * q + a * c) / q).
    - field. auto.
    - apply Rmult_eq_reg_r with q; auto. unfold Rdiv. rewrite Rmult_assoc, Rinv_l by auto. lra. }
  assert (A1 : quadratic a b c (q / a) = 0) by (rewrite F; ring).
  assert (A2 : quadratic a b c (c / q) = 0) by (rewrite F; ring).
  assert (A3 : forall t, quadratic a b c t = 0 -> t = q / a \/ t = c / q).
  { intros t Ht. rewrite F in Ht. apply Rmult_integral in Ht as [Ht|Ht]; [tauto|].
    apply Rmult_integral in Ht as [Ht|Ht]; [left|right]; lra. }
  destruct (Rltb (c / q) (q / a)).
  - apply two_roots_ok; auto. intros t Ht. destruct (A3 t Ht); auto.
  - apply two_roots_ok; auto.
Qed.

(* the cubic with three distinct real roots *)
Lemma insertR_in : forall x a l, In x (insertR a l) <-> x = a \/ In x l.
Proof.
  induction l as [|h t IH]; cbn; [intuition|]. destruct (Rleb a h); cbn; [intuition|]. rewrite IH. intuition.
Qed.
Lemma sortR_in : forall x l, In x (sortR l) <-> In x l.
Proof. induction l as [|h t IH]; cbn; [tauto|]. rewrite insertR_in, IH. intuition. Qed.

Lemma finds_sort : forall f lo hi l, finds_roots f lo hi l -> finds_roots f lo hi (sortR l).
Proof.
  intros f lo hi l [A B]. split.
  - intros x Hx. apply A, sortR_in, Hx.
  - intros r Hr Hz. destruct (B r Hr Hz) as (x & Hx & N). exists x. split; auto. apply sortR_in; auto.
Qed.

(* Vieta relations of the three cosines *)
Lemma three_cos : forall th, let k := fun i : nat => cos (th - 2 * PI * INR i / 3) in
  k 0%nat + k 1%nat + k 2%nat = 0 /\
  k 0%nat * k 1%nat + k 0%nat * k 2%nat + k 1%nat * k 2%nat = - 3 / 4 /\
  k 0%nat * k 1%nat * k 2%nat = cos (3 * th) / 4.
Proof.
  intros th k. unfold k. cbn [INR].
  replace (th - 2 * PI * 0 / 3) with th by field.
  replace (th - 2 * PI * 1 / 3) with (th - 2 * (PI / 3)) by field.
  replace (th - 2 * PI * (1 + 1) / 3) with ((th - PI / 3) - PI) by field.
  rewrite (cos_minus (th - PI / 3) PI), cos_PI, sin_PI.
  rewrite (cos_minus th (2 * (PI / 3))), (cos_minus th (PI / 3)).
  assert (C3 : cos (3 * th) = 4 * (cos th * cos th * cos th) - 3 * cos th).
  { replace (3 * th) with (2 * th + th) by ring. rewrite cos_plus, sin_2a, cos_2a_cos.
    pose proof (sin2_cos2 th) as S. unfold Rsqr in S.
    replace (2 * sin th * cos th * sin th) with (2 * (sin th * sin th) * cos th) by ring.
    replace (sin th * sin th) with (1 - cos th * cos th) by lra. ring. }
  rewrite C3. rewrite cos_2a, sin_2a, cos_PI3, sin_PI3.
  pose proof (sqrt_sqrt 3 ltac:(lra)) as S3. pose proof (sin2_cos2 th) as S. unfold Rsqr in S.
  assert (exists w, w = sqrt 3) as (w & Ew) by eauto. rewrite <- Ew in *.
  assert (exists x, x = cos th) as (x & Ex) by eauto. rewrite <- Ex in *.
  assert (exists z, z = sin th) as (z & Ez) by eauto. rewrite <- Ez in *.
  clear Ew Ex Ez C3 k.
  assert (W : w / 2 * (w / 2) = 3 / 4) by lra.
  repeat split.
  - replace (x * (1 / 2 * (1 / 2) - w / 2 * (w / 2)) + z * (2 * (w / 2) * (1 / 2))) with
      (x * (1 / 4 - w / 2 * (w / 2)) + z * w / 2) by field. rewrite W. field.
  - rewrite W. replace (2 * (w / 2) * (1 / 2)) with (w / 2) by field.
    assert (Z : z * z = 1 - x * x) by lra.
    transitivity (- (x * x) - ((z * z) * (w / 2 * (w / 2)) - x * x / 4)); [field|].
    rewrite W, Z. field.
  - rewrite W. replace (2 * (w / 2) * (1 / 2)) with (w / 2) by field.
    assert (Z : z * z = 1 - x * x) by lra.
    transitivity (x * (x * x / 4 - (z * z) * (w / 2 * (w / 2)))); [field|].
    rewrite W, Z. field.
Qed.

Lemma sq_le_abs1 : forall v, v * v <= 1 -> -1 <= v <= 1.
Proof. intros. split; nra. Qed.

Lemma solve_cubic_ok : forall a b c d lo hi, lo <= hi -> reps <= Rabs a ->
  reps < cubic_disc a b c d ->
  finds_roots (cubic a b c d) lo hi (solve_cubic a b c d lo hi).
Proof.
  intros a b c d lo hi H Ha Hd. unfold solve_cubic.
  destruct (Rltb (Rabs a) reps) eqn:E; rb; [lra|].
  assert (Ha0 : a <> 0). { intros ->. rewrite Rabs_R0 in Ha. pose proof reps_pos; lra. }
  unfold cubic_disc in Hd.
  assert (exists p, p = b / a) as (p & Ep) by eauto. assert (exists q, q = c / a) as (q & Eq) by eauto.
  assert (exists r, r = d / a) as (r & Er) by eauto. rewrite <- Ep, <- Eq, <- Er in *.
  replace (2 * (p * p) * p / 27) with (2 * p * p * p / 27) by field.
  assert (exists A, A = q - p * p / 3) as (A & EA) by eauto. rewrite <- EA in *.
  assert (exists B, B = r - p * q / 3 + 2 * p * p * p / 27) as (B & EB) by eauto. rewrite <- EB in *.
  cbv zeta. apply finds_sort.
  destruct (Rltb reps (- 4 * A * A * A - 27 * B * B)) eqn:Ed; rb; [|lra]. clear Ed.
  pose proof reps_pos as HR.
  assert (HA : A < 0).
  { destruct (Rlt_le_dec A 0) as [|HA]; auto. exfalso.
    assert (0 <= A * A * A) by (repeat apply Rmult_le_pos; auto). assert (0 <= B * B) by apply Rle_0_sqr. lra. }
  assert (exists s, s = sqrt (- A / 3)) as (s & Es) by eauto. rewrite <- Es.
  assert (Hs : s * s = - A / 3) by (rewrite Es; apply sqrt_sqrt; lra).
  assert (Hs0 : 0 < s) by (rewrite Es; apply sqrt_lt_R0; lra).
  assert (exists m, m = 2 * s) as (m & Em) by eauto. rewrite <- Em.
  assert (Hm : m * m = - 4 * A / 3) by (rewrite Em; lra). assert (Hm0 : 0 < m) by lra.
  assert (exists v, v = 3 * B / (A * m)) as (v & Ev) by eauto. rewrite <- Ev.
  assert (Hv : A * m * v = 3 * B) by (rewrite Ev; field; split; lra).
  assert (Hv1 : -1 <= v <= 1).
  { apply sq_le_abs1.
    assert (A * m * v * (A * m * v) = 9 * (B * B)) by (rewrite Hv; ring).
    replace (A * m * v * (A * m * v)) with (- (4 * A * A * A / 3) * (v * v)) in H0.
    2:{ replace (A * m * v * (A * m * v)) with (A * A * (m * m) * (v * v)) by ring. rewrite Hm. field. }
    assert (0 < - (4 * A * A * A / 3)).
    { assert (0 <= B * B) by apply Rle_0_sqr. lra. }
    apply Rmult_le_reg_l with (- (4 * A * A * A / 3)); auto. lra. }
  assert (exists th, th = acos v / 3) as (th & Eth) by eauto. rewrite <- Eth.
  assert (Hc3 : cos (3 * th) = v).
  { rewrite Eth. replace (3 * (acos v / 3)) with (acos v) by field. apply cos_acos; auto. }
  destruct (three_cos th) as (V1 & V2 & V3). cbn zeta in V1, V2, V3. rewrite Hc3 in V3.
  cbn [flat_map app].
  assert (exists k0, k0 = cos (th - 2 * PI * INR 0 / 3)) as (k0 & E0) by eauto. rewrite <- E0 in *.
  assert (exists k1, k1 = cos (th - 2 * PI * INR 1 / 3)) as (k1 & E1) by eauto. rewrite <- E1 in *.
  assert (exists k2, k2 = cos (th - 2 * PI * INR 2 / 3)) as (k2 & E2) by eauto. rewrite <- E2 in *.
  clear E0 E1 E2 Hc3 Eth Ev Em Es.
  assert (F : forall t, cubic a b c d t =
     a * ((t - (m * k0 + - p / 3)) * ((t - (m * k1 + - p / 3)) * (t - (m * k2 + - p / 3))))).
  { intros t. unfold cubic.
    replace (a * (t * t * t) + b * (t * t) + c * t + d) with (a * (t * t * t + p * (t * t) + q * t + r)) by (rewrite Ep, Eq, Er; field; auto).
    f_equal.
    assert (exists u, u = t + p / 3) as (u & Eu) by eauto.
    assert (U : t * t * t + p * (t * t) + q * t + r = u * u * u + A * u + B) by (rewrite Eu, EA, EB; field).
    rewrite U.
    replace (t - (m * k0 + - p / 3)) with (u - m * k0) by (rewrite Eu; field).
    replace (t - (m * k1 + - p / 3)) with (u - m * k1) by (rewrite Eu; field).
    replace (t - (m * k2 + - p / 3)) with (u - m * k2) by (rewrite Eu; field).
    transitivity (u * u * u - m * (k0 + k1 + k2) * (u * u) + (m * m) * (k0 * k1 + k0 * k2 + k1 * k2) * u - m * (m * m) * (k0 * k1 * k2)); [|ring].
    rewrite V1, V2, V3, Hm.
    assert (B = A * m * v / 3) as -> by lra. field. }
  set (t0 := m * k0 + - p / 3) in *. set (t1 := m * k1 + - p / 3) in *. set (t2 := m * k2 + - p / 3) in *.
  split.
  - intros x Hx.
    assert (forall z, cubic a b c d z = 0 -> In x (keep z lo hi) ->
      lo <= x <= hi /\ exists r0, cubic a b c d r0 = 0 /\ near x r0) as Q.
    { intros z Hz Hk. apply keep_in in Hk as [? ?]; auto. split; eauto. }
    apply in_app_or in Hx as [Hx|Hx]; [|apply in_app_or in Hx as [Hx|Hx]; [|rewrite app_nil_r in Hx]].
    + apply (Q t0); auto. rewrite F. ring.
    + apply (Q t1); auto. rewrite F. ring.
    + apply (Q t2); auto. rewrite F. ring.
  - intros z Hz Hf. rewrite F in Hf. exists z. split; [|apply near_refl].
    apply Rmult_integral in Hf as [Hf|Hf]; [tauto|].
    apply Rmult_integral in Hf as [Hf|Hf].
    { assert (z = t0) by lra. apply in_or_app. left. subst z. apply keep_has; auto. }
    apply in_or_app. right.
    apply Rmult_integral in Hf as [Hf|Hf].
    { assert (z = t1) by lra. apply in_or_app. left. subst z. apply keep_has; auto. }
    assert (z = t2) by lra. apply in_or_app. right. rewrite app_nil_r. subst z. apply keep_has; auto.
Qed.

(** Counterexamples *)
(* one real root, A > 0: nothing is reported *)
Lemma cubic_missed_A_pos : solve_cubic 1 0 1 (- (1 / 2)) 0 1 = [].
Proof.
  unfold solve_cubic, reps.
  destruct (Rltb (Rabs 1) (1 / 10000000000)) eqn:E; rb. { rewrite Rabs_R1 in E. lra. }
  cbv zeta.
  destruct (Rltb (1 / 10000000000) _) eqn:E1; rb; [exfalso; lra|].
  destruct (Rltb _ (- (1 / 10000000000))) eqn:E2; rb; [|exfalso; lra].
  unfold fsqrt. destruct (Rltb _ 0) eqn:E3; rb; [|exfalso; lra]. reflexivity.
Qed.
Lemma cubic_has_root : exists r, 0 <= r <= 1 /\ cubic 1 0 1 (- (1 / 2)) r = 0.
Proof.
  assert (C : continuity (cubic 1 0 1 (- (1 / 2)))) by (unfold cubic; reg).
  destruct (IVT_cor (cubic 1 0 1 (- (1 / 2))) 0 1 C ltac:(lra)) as (z & Hz & Z).
  - unfold cubic. lra.
  - exists z. auto.
Qed.

(* one real root, A < 0: (t+2)^3 - 3 (t+2) - 65/8 has the root 1/2, nothing is reported *)
Lemma cubic_missed_A_neg : solve_cubic 1 6 9 (- 49 / 8) 0 1 = [].
Proof.
  unfold solve_cubic, reps.
  destruct (Rltb (Rabs 1) (1 / 10000000000)) eqn:E; rb. { rewrite Rabs_R1 in E. lra. }
  cbv zeta.
  replace (9 / 1 - 6 / 1 * (6 / 1) / 3) with (-3) by field.
  replace (- 49 / 8 / 1 - 6 / 1 * (9 / 1) / 3 + 2 * (6 / 1 * (6 / 1)) * (6 / 1) / 27) with (- 65 / 8) by field.
  destruct (Rltb (1 / 10000000000) _) eqn:E1; rb; [exfalso; lra|].
  destruct (Rltb _ (- (1 / 10000000000))) eqn:E2; rb; [|exfalso; lra].
  unfold fsqrt. destruct (Rltb _ 0) eqn:E3; rb; [exfalso; lra|].
  destruct (Rltb (-3) 0) eqn:E4; rb; [|exfalso; lra].
  replace (- -3 / 3) with 1 by field. rewrite sqrt_1.
  rewrite (Rabs_left (- 65 / 8)) by lra.
  replace (- (- 65 / 8) / (1 * 1 * 1) * (3 / 2)) with (195 / 16) by field.
  unfold copysign. destruct (Rltb (- 65 / 8) 0) eqn:E5; rb; [|exfalso; lra].
  assert (Hw : 12 <= sqrt (195 / 16 * (195 / 16) - 1)).
  { rewrite <- (sqrt_square 12) by lra. apply sqrt_le_1_alt. lra. }
  assert (exists w, w = sqrt (195 / 16 * (195 / 16) - 1)) as (w & Ew) by eauto. rewrite <- Ew in *.
  assert (exists y, y = ln (195 / 16 + w) / 3) as (y & Ey) by eauto. rewrite <- Ey.
  assert (Hy : exp y * exp y * exp y = 195 / 16 + w).
  { rewrite <- !exp_plus. replace (y + y + y) with (ln (195 / 16 + w)) by lra. apply exp_ln. lra. }
  pose proof (exp_pos y) as Hp.
  assert (Hz : 14 / 5 < exp y).
  { destruct (Rlt_le_dec (14 / 5) (exp y)); auto. exfalso.
    assert (exp y * exp y <= 14 / 5 * (14 / 5)) by (apply Rmult_le_compat; lra).
    assert (exp y * exp y * exp y <= 14 / 5 * (14 / 5) * (14 / 5)) by (apply Rmult_le_compat; nra). lra. }
  assert (Hch : 151 / 100 < cosh y).
  { unfold cosh. rewrite exp_Ropp.
    assert (3157 / 1000 < exp y + / exp y - 0).
    { apply Rmult_lt_reg_r with (exp y); auto. rewrite Rminus_0_r, Rmult_plus_distr_r, Rinv_l by lra. nra. }
    lra. }
  unfold keep. destruct (_ && _)%bool eqn:E6; auto. exfalso.
  apply in_range_iff in E6. unfold reps in E6. lra.
Qed.
Lemma cubic_missed_A_neg_root : cubic 1 6 9 (- 49 / 8) (1 / 2) = 0.
Proof. unfold cubic. field. Qed.

(* a small discriminant: the reported value is not a root *)
Lemma quadratic_small_disc : solve_quadratic (1 / 10000) 0 (- 1 / 10000000) 0 1 = [0].
Proof.
  unfold solve_quadratic.
  destruct (Rltb (Rabs (1 / 10000)) reps) eqn:E; rb. { rewrite Rabs_right in E by lra. unfold reps in E. lra. }
  cbv zeta.
  destruct (Rltb _ 0) eqn:E1; rb; [exfalso; lra|].
  destruct (Rltb _ reps) eqn:E2; rb; unfold reps in E2; [|exfalso; lra].
  unfold keep, reps. replace (- 0 / (2 * (1 / 10000))) with 0 by field.
  destruct (_ && _)%bool eqn:E3.
  - rewrite clampR_id by lra. reflexivity.
  - assert (0 - reps <= 0 <= 1 + reps) as Q by (unfold reps; lra). apply in_range_iff in Q. unfold reps in Q. congruence.
Qed.
