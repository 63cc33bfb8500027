(** * C105: aperture samples are uniform over the aperture: the sampler's unit square is mapped one-to-one onto the disc, with a constant area factor. *)
From Verif Require Import Vec3 SensorModel SensorSpec SensorProofs.
From Coquelicot Require Import Coquelicot.
Open Scope R_scope.

Definition in_square (u : R * R) : Prop := 0 <= fst u <= 1 /\ 0 <= snd u <= 1.
(* near u the map f multiplies areas by k: the determinant of its partial derivatives *)
Definition stretches_area (f : R * R -> R * R) (u : R * R) (k : R) : Prop := exists xu xv yu yv,
  is_derive (fun s => fst (f (s, snd u))) (fst u) xu /\ is_derive (fun s => fst (f (fst u, s))) (snd u) xv /\
  is_derive (fun s => snd (f (s, snd u))) (fst u) yu /\ is_derive (fun s => snd (f (fst u, s))) (snd u) yv /\ xu * yv - xv * yu = k.

(* one sector *)
Definition F (a b : R) : R * R := (a * cos (PI / 4 * (b / a)), a * sin (PI / 4 * (b / a))).
Lemma ratio_bound a b : a <> 0 -> b * b <= a * a -> -1 <= b / a <= 1 /\ (b * b < a * a -> -1 < b / a < 1).
Proof.
  intros A H. assert (E: b = b / a * a) by (field; auto). set (k := b / a) in *. assert (AA: 0 < a * a) by (destruct (Rtotal_order a 0) as [|[|]]; nra).
  split. - assert (k * k <= 1) by (rewrite E in H; nra). split; nra. - intros H'. assert (k * k < 1) by (rewrite E in H'; nra). split; nra.
Qed.
Lemma quarter k : -1 <= k <= 1 -> 0 < cos (PI / 4 * k) /\ sin (PI / 4 * k) * sin (PI / 4 * k) <= cos (PI / 4 * k) * cos (PI / 4 * k) /\ (-1 < k < 1 -> sin (PI / 4 * k) * sin (PI / 4 * k) < cos (PI / 4 * k) * cos (PI / 4 * k)).
Proof.
  intros K. pose proof PI_RGT_0 as P. split; [apply cos_gt_0; nra|].
  assert (E: cos (2 * (PI / 4 * k)) = cos (PI / 4 * k) * cos (PI / 4 * k) - sin (PI / 4 * k) * sin (PI / 4 * k)) by apply cos_2a.
  split.
  - assert (0 <= cos (2 * (PI / 4 * k))) by (apply cos_ge_0; nra). lra.
  - intros K'. assert (0 < cos (2 * (PI / 4 * k))) by (apply cos_gt_0; nra). lra.
Qed.
Lemma F_sector a b : a <> 0 -> b * b <= a * a -> let p := F a b in
  fst p * fst p + snd p * snd p = a * a /\ 0 < fst p * a /\ snd p * snd p <= fst p * fst p /\ (b * b < a * a -> snd p * snd p < fst p * fst p).
Proof.
  intros A H. destruct (ratio_bound a b A H) as (K & K'). destruct (quarter _ K) as (C & S & S'). cbn. assert (AA: 0 < a * a) by (destruct (Rtotal_order a 0) as [|[|]]; nra).
  pose proof (sin2_cos2 (PI / 4 * (b / a))) as SC. unfold Rsqr in SC. set (c := cos _) in *. set (s := sin _) in *. clearbody c s.
  split; [replace (a * c * (a * c) + a * s * (a * s)) with (a * a * (s * s + c * c)) by ring; rewrite SC; ring|]. split; [nra|].
  split; [nra|]. intros H'. specialize (S' (K' H')). nra.
Qed.
Lemma F_inj a b a' b' : a <> 0 -> b * b <= a * a -> a' <> 0 -> b' * b' <= a' * a' -> F a b = F a' b' -> a = a' /\ b = b'.
Proof.
  intros A H A' H' E. destruct (F_sector a b A H) as (Q & S & _). destruct (F_sector a' b' A' H') as (Q' & S' & _). rewrite E in Q, S. cbv zeta in Q, S.
  assert (AE: a = a'). { assert ((a - a') * (a + a') = 0) by nra. apply Rmult_integral in H0. destruct H0; [lra|]. exfalso. assert (a = - a') by lra. subst a. nra. }
  subst a'. split; auto. injection E as E1 E2.
  destruct (ratio_bound a b A H) as (K & _). destruct (ratio_bound a b' A H') as (K' & _). pose proof PI_RGT_0.
  assert (SE: sin (PI / 4 * (b / a)) = sin (PI / 4 * (b' / a))) by (apply (Rmult_eq_reg_l a); auto).
  assert (TE: PI / 4 * (b / a) = PI / 4 * (b' / a)). { rewrite <- (asin_sin (PI / 4 * (b / a))) by nra. rewrite <- (asin_sin (PI / 4 * (b' / a))) by nra. rewrite SE. auto. }
  assert (b / a = b' / a) by (apply (Rmult_eq_reg_l (PI / 4)); lra). apply (Rmult_eq_reg_r (/ a)); auto. apply Rinv_neq_0_compat; auto.
Qed.
Lemma F_surj x y : x <> 0 -> y * y <= x * x -> exists a b, a <> 0 /\ a * a = x * x + y * y /\ b * b <= a * a /\ (y * y < x * x -> b * b < a * a) /\ F a b = (x, y).
Proof.
  intros X H. pose proof PI_RGT_0 as P. destruct (ratio_bound x y X H) as (K & K').
  assert (XX: 0 < x * x) by (destruct (Rtotal_order x 0) as [|[|]]; nra).
  set (t := atan (y / x)). set (rho := sqrt (x * x + y * y)). assert (RR: rho * rho = x * x + y * y) by (apply sqrt_sqrt; nra). assert (R0: 0 < rho) by (apply sqrt_lt_R0; nra).
  assert (TB: - (PI / 4) <= t <= PI / 4). { unfold t. rewrite <- atan_1, <- atan_opp. assert (MON: forall p q, p <= q -> atan p <= atan q) by (intros p q [L| ->]; [left; apply atan_increasing; auto|lra]). split; apply MON; lra. }
  assert (TB': y * y < x * x -> - (PI / 4) < t < PI / 4). { intros L. specialize (K' L). unfold t. rewrite <- atan_1, <- atan_opp. split; apply atan_increasing; lra. }
  assert (SQ: sqrt (1 + (y / x)²) = rho / Rabs x). { unfold rho. rewrite <- (sqrt_Rsqr_abs x). unfold Rsqr. rewrite <- sqrt_div_alt by auto. f_equal. field. auto. }
  assert (C: cos t = Rabs x / rho) by (unfold t; rewrite cos_atan, SQ; field; split; [lra|apply Rabs_no_R0; auto]).
  assert (S: sin t = y / x * (Rabs x / rho)) by (unfold t; rewrite sin_atan, SQ; field; split; [lra|split; auto; apply Rabs_no_R0; auto]).
  assert (EX: exists a, a <> 0 /\ a * a = rho * rho /\ a * Rabs x = rho * x). { destruct (Rlt_dec 0 x); [exists rho|exists (- rho)]; (split; [lra|split; [ring|]]); [rewrite Rabs_pos_eq by lra|rewrite Rabs_left by lra]; ring. }
  destruct EX as (a & A & AA & AX). exists a, (a * (4 / PI * t)).
  assert (KB: -1 <= 4 / PI * t <= 1). { assert (E: t = PI / 4 * (4 / PI * t)) by (field; lra). set (k := 4 / PI * t) in *. split; nra. }
  assert (KB': y * y < x * x -> -1 < 4 / PI * t < 1). { intros L. specialize (TB' L). assert (E: t = PI / 4 * (4 / PI * t)) by (field; lra). set (k := 4 / PI * t) in *. split; nra. }
  set (k := 4 / PI * t) in *. assert (0 < a * a) by nra. split; auto. split; [lra|]. split; [|split].
  - assert (k * k <= 1) by nra. nra.
  - intros L. specialize (KB' L). assert (k * k < 1) by nra. nra.
  - unfold F. replace (PI / 4 * (a * k / a)) with t by (unfold k; field; split; lra). rewrite C, S. f_equal.
    + replace (a * (Rabs x / rho)) with (a * Rabs x / rho) by (field; lra). rewrite AX. field. lra.
    + replace (a * (y / x * (Rabs x / rho))) with (y / x * (a * Rabs x) / rho) by (field; split; lra). rewrite AX. field. split; lra.
Qed.

(* the sampling function by sectors *)
Lemma sample_sectors ap u : let a := 2 * fst u - 1 in let b := 2 * snd u - 1 in let r := ap_radius ap in
  aperture_sample ap u = if Rltb (b * b) (a * a) then (r * fst (F a b), r * snd (F a b)) else if Req_EM_T b 0 then (0, 0) else (r * snd (F b a), r * fst (F b a)).
Proof.
  cbv zeta. unfold aperture_sample, F. cbn [fst snd]. destruct (Rltb _ _); [f_equal; ring|]. destruct (Req_EM_T _ 0); auto.
  f_equal; [rewrite cos_shift|rewrite sin_shift]; ring.
Qed.

Lemma pair_inv (a b c d : R) : (a, b) = (c, d) -> a = c /\ b = d. Proof. intros H; injection H; auto. Qed.
Theorem C105_one_to_one : forall ap p, 0 < ap_radius ap -> on_disc (ap_radius ap) p ->
  exists u, in_square u /\ aperture_sample ap u = p /\ forall u', in_square u' -> aperture_sample ap u' = p -> u' = u.
Proof.
  intros ap [x y] R0 D. unfold on_disc in D. cbn [fst snd] in D. set (r := ap_radius ap) in *.
  assert (IN: forall a, a * a <= 1 -> 0 <= (a + 1) / 2 <= 1) by (intros a H; split; nra).
  assert (DIV: forall z q, q = z / r -> r * q = z) by (intros z q ->; field; lra).
  assert (RX: r * (x / r) = x) by (field; lra). assert (RY: r * (y / r) = y) by (field; lra). set (X := x / r) in *. set (Y := y / r) in *.
  clearbody X Y.
  assert (DD: X * X + Y * Y <= 1). { apply (Rmult_le_reg_l (r * r)); [nra|]. replace (r * r * (X * X + Y * Y)) with (r * X * (r * X) + r * Y * (r * Y)) by ring. rewrite RX, RY. lra. }
  destruct (Rlt_dec (Y * Y) (X * X)) as [L|G].
  - assert (XN: X <> 0) by (intros E; rewrite E in L; nra). destruct (F_surj X Y XN ltac:(lra)) as (a & b & A & AA & B & B' & E). specialize (B' L).
    exists ((a + 1) / 2, (b + 1) / 2). split; [split; cbn [fst snd]; apply IN; nra|]. split.
    + rewrite sample_sectors. cbn [fst snd]. replace (2 * ((a + 1) / 2) - 1) with a by field. replace (2 * ((b + 1) / 2) - 1) with b by field. rewrite (proj2 (Rltb_true _ _) B'). fold r. rewrite E. cbn [fst snd]. rewrite RX, RY. auto.
    + intros [u1 u2] (I1 & I2) S. rewrite sample_sectors in S. cbn [fst snd] in *. set (a' := 2 * u1 - 1) in *. set (b' := 2 * u2 - 1) in *. fold r in S.
      destruct (Rltb (b' * b') (a' * a')) eqn:E1; rb.
      * assert (A': a' <> 0) by nra. assert (FE: F a' b' = F a b). { rewrite E. apply pair_inv in S; destruct S as (S1 & S2). apply injective_projections; cbn [fst snd]; [apply (Rmult_eq_reg_l r); lra|apply (Rmult_eq_reg_l r); lra]. }
        destruct (F_inj a' b' a b A' ltac:(lra) A B FE). unfold a', b' in *. f_equal; lra.
      * exfalso. destruct (Req_EM_T b' 0) as [Z|Z].
        -- apply pair_inv in S; destruct S as (S1 & S2). assert (X = 0) by (apply (Rmult_eq_reg_l r); lra). contradiction.
        -- destruct (F_sector b' a' Z E1) as (_ & _ & Q & _). cbv zeta in Q. apply pair_inv in S; destruct S as (S1 & S2). assert (snd (F b' a') = X) by (apply (Rmult_eq_reg_l r); lra). assert (fst (F b' a') = Y) by (apply (Rmult_eq_reg_l r); lra). nra.
  - destruct (Req_dec Y 0) as [Y0|YN].
    + assert (X0: X = 0) by nra. exists (1 / 2, 1 / 2). split; [split; cbn; lra|]. split.
      * rewrite sample_sectors. cbn [fst snd]. replace (2 * (1 / 2) - 1) with 0 by field. rewrite (proj2 (Rltb_false _ _)) by lra. destruct (Req_EM_T 0 0); [|lra]. rewrite <- RX, <- RY, X0, Y0. f_equal; ring.
      * intros [u1 u2] (I1 & I2) S. rewrite sample_sectors in S. cbn [fst snd] in *. set (a' := 2 * u1 - 1) in *. set (b' := 2 * u2 - 1) in *. fold r in S. rewrite <- RX, <- RY, X0, Y0, Rmult_0_r in S.
        destruct (Rltb (b' * b') (a' * a')) eqn:E1; rb.
        -- exfalso. assert (A': a' <> 0) by nra. destruct (F_sector a' b' A' ltac:(lra)) as (_ & Q & _). cbv zeta in Q. apply pair_inv in S; destruct S as (S1 & S2). assert (fst (F a' b') = 0) by (apply (Rmult_eq_reg_l r); lra). rewrite H in Q. lra.
        -- destruct (Req_EM_T b' 0) as [Z|Z].
           ++ assert (a' = 0) by nra. unfold a', b' in *. f_equal; lra.
           ++ exfalso. destruct (F_sector b' a' Z E1) as (_ & Q & _). cbv zeta in Q. apply pair_inv in S; destruct S as (S1 & S2). assert (fst (F b' a') = 0) by (apply (Rmult_eq_reg_l r); lra). rewrite H in Q. lra.
    + destruct (F_surj Y X YN ltac:(lra)) as (b & a & A & AA & B & _ & E).
      exists ((a + 1) / 2, (b + 1) / 2). split; [split; cbn [fst snd]; apply IN; nra|]. split.
      * rewrite sample_sectors. cbn [fst snd]. replace (2 * ((a + 1) / 2) - 1) with a by field. replace (2 * ((b + 1) / 2) - 1) with b by field. rewrite (proj2 (Rltb_false _ _)) by lra. destruct (Req_EM_T b 0); [contradiction|]. fold r. rewrite E. cbn [fst snd]. rewrite RX, RY. auto.
      * intros [u1 u2] (I1 & I2) S. rewrite sample_sectors in S. cbn [fst snd] in *. set (a' := 2 * u1 - 1) in *. set (b' := 2 * u2 - 1) in *. fold r in S.
        destruct (Rltb (b' * b') (a' * a')) eqn:E1; rb.
        -- exfalso. assert (A': a' <> 0) by nra. destruct (F_sector a' b' A' ltac:(lra)) as (_ & _ & _ & Q). cbv zeta in Q. specialize (Q E1). apply pair_inv in S; destruct S as (S1 & S2). assert (fst (F a' b') = X) by (apply (Rmult_eq_reg_l r); lra). assert (snd (F a' b') = Y) by (apply (Rmult_eq_reg_l r); lra). nra.
        -- destruct (Req_EM_T b' 0) as [Z|Z].
           ++ exfalso. apply pair_inv in S; destruct S as (S1 & S2). assert (Y = 0) by (apply (Rmult_eq_reg_l r); lra). contradiction.
           ++ assert (FE: F b' a' = F b a). { rewrite E. apply pair_inv in S; destruct S as (S1 & S2). apply injective_projections; cbn [fst snd]; apply (Rmult_eq_reg_l r); lra. }
              destruct (F_inj b' a' b a Z ltac:(lra) A B FE). unfold a', b' in *. f_equal; lra.
Qed.
Print Assumptions C105_one_to_one.

Lemma loc_sq (k : R) (x : R) : k < (2 * x - 1) * (2 * x - 1) -> locally x (fun y => k < (2 * y - 1) * (2 * y - 1)).
Proof.
  intros H. apply (open_comp (fun y : R => (2 * y - 1) * (2 * y - 1)) (fun z : R => k < z)); auto.
  - intros y _. apply (ex_derive_continuous (V := R_NormedModule) (fun y : R => (2 * y - 1) * (2 * y - 1)) y). auto_derive. auto.
  - apply open_gt.
Qed.
Lemma loc_sq' (k : R) (x : R) : (2 * x - 1) * (2 * x - 1) < k -> locally x (fun y => (2 * y - 1) * (2 * y - 1) < k).
Proof.
  intros H. apply (open_comp (fun y : R => (2 * y - 1) * (2 * y - 1)) (fun z : R => z < k)); auto.
  - intros y _. apply (ex_derive_continuous (V := R_NormedModule) (fun y : R => (2 * y - 1) * (2 * y - 1)) y). auto_derive. auto.
  - apply open_lt.
Qed.
Lemma dF1a b a : a <> 0 -> is_derive (fun a => fst (F a b)) a (cos (PI / 4 * (b / a)) + sin (PI / 4 * (b / a)) * (PI / 4 * (b / a))).
Proof. intros A. unfold F. cbn [fst]. auto_derive; auto. unfold Rminus. match goal with |- ?x = ?y => change (@eq R x y) end. unfold Rdiv. field; auto. Qed.
Lemma dF1b b a : a <> 0 -> is_derive (fun b => fst (F a b)) b (- (sin (PI / 4 * (b / a)) * (PI / 4))).
Proof. intros A. unfold F. cbn [fst]. auto_derive; auto. match goal with |- ?x = ?y => change (@eq R x y) end. unfold Rdiv. field; auto. Qed.
Lemma dF2a b a : a <> 0 -> is_derive (fun a => snd (F a b)) a (sin (PI / 4 * (b / a)) - cos (PI / 4 * (b / a)) * (PI / 4 * (b / a))).
Proof. intros A. unfold F. cbn [snd]. auto_derive; auto. match goal with |- ?x = ?y => change (@eq R x y) end. unfold Rdiv. field; auto. Qed.
Lemma dF2b b a : a <> 0 -> is_derive (fun b => snd (F a b)) b (cos (PI / 4 * (b / a)) * (PI / 4)).
Proof. intros A. unfold F. cbn [snd]. auto_derive; auto. match goal with |- ?x = ?y => change (@eq R x y) end. unfold Rdiv. field; auto. Qed.
(* scaled and composed with u -> 2u - 1 *)
Lemma d_lift (r : R) (f : R -> R) x d : is_derive f (2 * x - 1) d -> is_derive (fun s => r * f (2 * s - 1)) x (r * (2 * d)).
Proof.
  intros H. apply (is_derive_scal (fun s => f (2 * s - 1)) x r (2 * d)). apply (is_derive_comp (V := R_NormedModule) f (fun s => 2 * s - 1) x d 2); auto. auto_derive; auto. ring.
Qed.
Theorem C105_constant_density : forall ap u, let a := 2 * fst u - 1 in let b := 2 * snd u - 1 in a * a <> b * b ->
  stretches_area (aperture_sample ap) u (PI * (ap_radius ap * ap_radius ap)).
Proof.
  intros ap [s t] a b N. cbn [fst snd] in a, b. set (r := ap_radius ap). destruct (Rlt_dec (b * b) (a * a)) as [L|G].
  - assert (A: a <> 0) by nra.
    exists (r * (2 * (cos (PI / 4 * (b / a)) + sin (PI / 4 * (b / a)) * (PI / 4 * (b / a))))), (r * (2 * - (sin (PI / 4 * (b / a)) * (PI / 4)))), (r * (2 * (sin (PI / 4 * (b / a)) - cos (PI / 4 * (b / a)) * (PI / 4 * (b / a))))), (r * (2 * (cos (PI / 4 * (b / a)) * (PI / 4)))).
    cbn [fst snd]. split; [|split; [|split; [|split]]].
    + eapply is_derive_ext_loc; [|apply (d_lift r (fun a => fst (F a b))), dF1a; auto]. eapply filter_imp; [|apply (loc_sq (b * b) s L)]. intros y Y. cbn beta. rewrite sample_sectors. cbn [fst snd]. fold b. rewrite (proj2 (Rltb_true _ _) Y). auto.
    + eapply is_derive_ext_loc; [|apply (d_lift r (fun b => fst (F a b))), dF1b; auto]. eapply filter_imp; [|apply (loc_sq' (a * a) t L)]. intros y Y. cbn beta. rewrite sample_sectors. cbn [fst snd]. fold a. rewrite (proj2 (Rltb_true _ _) Y). auto.
    + eapply is_derive_ext_loc; [|apply (d_lift r (fun a => snd (F a b))), dF2a; auto]. eapply filter_imp; [|apply (loc_sq (b * b) s L)]. intros y Y. cbn beta. rewrite sample_sectors. cbn [fst snd]. fold b. rewrite (proj2 (Rltb_true _ _) Y). auto.
    + eapply is_derive_ext_loc; [|apply (d_lift r (fun b => snd (F a b))), dF2b; auto]. eapply filter_imp; [|apply (loc_sq' (a * a) t L)]. intros y Y. cbn beta. rewrite sample_sectors. cbn [fst snd]. fold a. rewrite (proj2 (Rltb_true _ _) Y). auto.
    + pose proof (sin2_cos2 (PI / 4 * (b / a))) as SC. unfold Rsqr in SC. set (q := PI / 4 * (b / a)) in *. clearbody q.
      replace (PI * (r * r)) with (PI * (r * r) * (sin q * sin q + cos q * cos q)) by (rewrite SC; ring). field.
  - assert (L: a * a < b * b) by lra. assert (B: b <> 0) by nra.
    exists (r * (2 * (cos (PI / 4 * (a / b)) * (PI / 4)))), (r * (2 * (sin (PI / 4 * (a / b)) - cos (PI / 4 * (a / b)) * (PI / 4 * (a / b))))), (r * (2 * - (sin (PI / 4 * (a / b)) * (PI / 4)))), (r * (2 * (cos (PI / 4 * (a / b)) + sin (PI / 4 * (a / b)) * (PI / 4 * (a / b))))).
    assert (OFF: forall y, a * a < (2 * y - 1) * (2 * y - 1) -> aperture_sample ap (s, y) = (r * snd (F (2 * y - 1) a), r * fst (F (2 * y - 1) a))).
    { intros y Y. rewrite sample_sectors. cbn [fst snd]. fold a. rewrite (proj2 (Rltb_false _ _)) by lra. destruct (Req_EM_T (2 * y - 1) 0) as [E|E]; auto. rewrite E in Y. nra. }
    assert (OFF': forall y, (2 * y - 1) * (2 * y - 1) < b * b -> aperture_sample ap (y, t) = (r * snd (F b (2 * y - 1)), r * fst (F b (2 * y - 1)))).
    { intros y Y. rewrite sample_sectors. cbn [fst snd]. fold b. rewrite (proj2 (Rltb_false _ _)) by lra. destruct (Req_EM_T b 0) as [E|E]; auto. contradiction. }
    cbn [fst snd]. split; [|split; [|split; [|split]]].
    + eapply is_derive_ext_loc; [|apply (d_lift r (fun a => snd (F b a))), dF2b; auto]. eapply filter_imp; [|apply (loc_sq' (b * b) s L)]. intros y Y. symmetry. exact (f_equal fst (OFF' y Y)).
    + eapply is_derive_ext_loc; [|apply (d_lift r (fun b => snd (F b a))), dF2a; auto]. eapply filter_imp; [|apply (loc_sq (a * a) t L)]. intros y Y. symmetry. exact (f_equal fst (OFF y Y)).
    + eapply is_derive_ext_loc; [|apply (d_lift r (fun a => fst (F b a))), dF1b; auto]. eapply filter_imp; [|apply (loc_sq' (b * b) s L)]. intros y Y. symmetry. exact (f_equal snd (OFF' y Y)).
    + eapply is_derive_ext_loc; [|apply (d_lift r (fun b => fst (F b a))), dF1a; auto]. eapply filter_imp; [|apply (loc_sq (a * a) t L)]. intros y Y. symmetry. exact (f_equal snd (OFF y Y)).
    + pose proof (sin2_cos2 (PI / 4 * (a / b))) as SC. unfold Rsqr in SC. set (q := PI / 4 * (a / b)) in *. clearbody q.
      replace (PI * (r * r)) with (PI * (r * r) * (sin q * sin q + cos q * cos q)) by (rewrite SC; ring). field.
Qed.
Print Assumptions C105_constant_density.
(* the factor is the aperture's area, so a sample falls into a part of the aperture with probability proportional to its area *)
Theorem C105_factor_is_area : forall a d f n, 0 <= a -> 0 < f -> 0 < n ->
  PI * (ap_radius (set_area a) * ap_radius (set_area a)) = ap_area (set_area a) /\ PI * (ap_radius (set_diameter d) * ap_radius (set_diameter d)) = ap_area (set_diameter d) /\
  PI * (ap_radius (set_fstop f n) * ap_radius (set_fstop f n)) = ap_area (set_fstop f n).
Proof.
  intros a d f n A F0 N. split; [apply area_radius; auto|]. split; [cbn; field|]. unfold set_fstop. apply area_radius. pose proof PI_RGT_0. assert (0 < f / n) by (apply Rdiv_lt_0_compat; auto). apply Rmult_le_pos; [|lra]. apply Rmult_le_pos; nra.
Qed.
Example C105_case : 0 < ap_radius (set_diameter 2) /\ on_disc (ap_radius (set_diameter 2)) (1 / 2, - (1 / 2)) /\ in_square (3 / 4, 1 / 4) /\ (2 * (3 / 4) - 1) * (2 * (3 / 4) - 1) <> (2 * (1 / 3) - 1) * (2 * (1 / 3) - 1).
Proof. cbn. unfold on_disc, in_square; cbn. repeat split; lra. Qed.
