(* The starting values at 8 and the accuracy of the code's Bessel function beyond 8. *)
From Verif Require Import Common Vec3 AiryModel PolyCheck BesselSeries BesselNear BesselFar BesselEnergy.
From Coq Require Import Reals Lra Lia List ZArith Psatz.
From Coquelicot Require Import Coquelicot.
Import ListNotations.
Open Scope R_scope.
Definition theta := 8 - phi.
Definition dcos : list R := map IZR [2; 12; 30; 56; 90; 132; 182; 240; 306; 380; 462; 552; 650; 756; 870; 992; 1122; 1260]%Z.
Definition dsin : list R := map IZR [6; 20; 42; 72; 110; 156; 210; 272; 342; 420; 506; 600; 702; 812; 930; 1056; 1190; 1332]%Z.
Definition djg1 : list R := map IZR [3; 8; 15; 24; 35; 48; 63; 80; 99; 120; 143; 168; 195; 224; 255; 288; 323; 360]%Z.
Lemma cosn_S k : cos_n (S k) = - cos_n k / (INR (2 * k + 1) * INR (2 * k + 2)).
Proof.
  assert (N : cos_n k <> 0). { unfold cos_n. apply Rmult_integral_contrapositive_currified; [apply pow_nonzero; lra|apply Rinv_neq_0_compat, INR_fact_neq_0]. }
  pose proof (simpl_cos_n k) as SS. apply (f_equal (fun t => t * cos_n k)) in SS. unfold Rdiv in SS at 1. rewrite Rmult_assoc, Rinv_l, Rmult_1_r in SS by auto. rewrite SS.
  rewrite mult_INR. replace (2 * S k)%nat with (2 * k + 2)%nat by lia. field. split; apply not_0_INR; lia.
Qed.
Lemma sinn_S k : sin_n (S k) = - sin_n k / (INR (2 * k + 2) * INR (2 * k + 3)).
Proof.
  assert (N : sin_n k <> 0). { unfold sin_n. apply Rmult_integral_contrapositive_currified; [apply pow_nonzero; lra|apply Rinv_neq_0_compat, INR_fact_neq_0]. }
  pose proof (simpl_sin_n k) as SS. apply (f_equal (fun t => t * sin_n k)) in SS. unfold Rdiv in SS at 1. rewrite Rmult_assoc, Rinv_l, Rmult_1_r in SS by auto. rewrite SS.
  rewrite mult_INR. replace (2 * S k + 1)%nat with (2 * k + 3)%nat by lia. replace (2 * S k)%nat with (2 * k + 2)%nat by lia. field. split; apply not_0_INR; lia.
Qed.
Lemma cos_series x : cos x = Series (fun k => cos_n k * Rsqr x ^ k).
Proof. unfold cos. destruct (exist_cos (Rsqr x)) as (l & L). symmetry. apply is_series_unique. apply is_series_Reals. exact L. Qed.
Lemma sin_series x : sin x = x * Series (fun k => sin_n k * Rsqr x ^ k).
Proof. unfold sin. destruct (exist_sin (Rsqr x)) as (l & L). f_equal. symmetry. apply is_series_unique. apply is_series_Reals. exact L. Qed.
Lemma th2 : 0 <= Rsqr theta <= 32.
Proof. unfold theta, phi, Rsqr. lra. Qed.
Lemma cos0n : cos_n 0 = 1. Proof. unfold cos_n. cbn. field. Qed.
Lemma sin0n : sin_n 0 = 1. Proof. unfold sin_n. cbn. field. Qed.
Lemma cos_18 : Rabs (cos_n 18) <= 3 / 10 ^ 42.
Proof. rewrite !cosn_S, cos0n. cbn [INR Nat.mul Nat.add]. apply Rabs_le. lra. Qed.
Lemma sin_18 : Rabs (sin_n 18) <= 3 / 10 ^ 42.
Proof. rewrite !sinn_S, sin0n. cbn [INR Nat.mul Nat.add]. apply Rabs_le. lra. Qed.
Lemma cos_theta : Rabs (cos theta - nest dcos (Rsqr theta)) <= 1 / 10 ^ 13.
Proof.
  rewrite cos_series. set (u := Rsqr theta). pose proof th2 as U. fold u in U. set (c := fun k => cos_n k * u ^ k). set (r := fun k => INR (2 * k + 1) * INR (2 * k + 2)).
  assert (RP : forall k, 0 < r k) by (intros k; apply Rmult_lt_0_compat; apply lt_0_INR; lia).
  assert (C : forall k, c (S k) = - c k * u / r k). { intros k. unfold c, r. rewrite cosn_S, <- tech_pow_Rmult. field. split; apply not_0_INR; lia. }
  assert (T : forall k, (18 <= k)%nat -> 2 * Rabs u <= r k). { intros k K. rewrite Rabs_pos_eq by lra. unfold r. rewrite !plus_INR, !mult_INR. apply le_INR in K. replace (INR 18) with 18 in K by (cbn; lra). cbn [INR]. nra. }
  destruct (alt_series c r u 18 RP C T) as (_ & B). change (Series c) with (Series (fun k => cos_n k * u ^ k)) in B.
  replace (map r (seq 0 18)) with dcos in B. 2:{ unfold dcos, r. cbn [map seq INR Nat.mul Nat.add]. repeat (apply f_equal2; [lra|]). reflexivity. }
  unfold c in B at 1. rewrite cos0n in B. cbn [pow] in B. rewrite !Rmult_1_l in B. eapply Rle_trans; [exact B|]. unfold c. rewrite Rabs_mult, (Rabs_pos_eq (u ^ 18)) by (apply pow_le; lra).
  pose proof cos_18 as J. pose proof (pow_incr u 32 18 U) as PI. assert (E : 32 ^ 18 = 1237940039285380274899124224) by (cbn; lra). rewrite E in PI. pose proof (Rabs_pos (cos_n 18)). assert (0 <= u ^ 18) by (apply pow_le; lra).
  apply Rle_trans with (2 * (3 / 10 ^ 42 * 1237940039285380274899124224)); [|lra]. apply Rmult_le_compat_l; [lra|]. apply Rmult_le_compat; auto.
Qed.
Lemma sin_theta : Rabs (sin theta - theta * nest dsin (Rsqr theta)) <= 1 / 10 ^ 13.
Proof.
  rewrite sin_series. set (u := Rsqr theta). pose proof th2 as U. fold u in U. set (c := fun k => sin_n k * u ^ k). set (r := fun k => INR (2 * k + 2) * INR (2 * k + 3)).
  assert (RP : forall k, 0 < r k) by (intros k; apply Rmult_lt_0_compat; apply lt_0_INR; lia).
  assert (C : forall k, c (S k) = - c k * u / r k). { intros k. unfold c, r. rewrite sinn_S, <- tech_pow_Rmult. field. split; apply not_0_INR; lia. }
  assert (T : forall k, (18 <= k)%nat -> 2 * Rabs u <= r k). { intros k K. rewrite Rabs_pos_eq by lra. unfold r. rewrite !plus_INR, !mult_INR. apply le_INR in K. replace (INR 18) with 18 in K by (cbn; lra). cbn [INR]. nra. }
  destruct (alt_series c r u 18 RP C T) as (_ & B). change (Series c) with (Series (fun k => sin_n k * u ^ k)) in B.
  replace (map r (seq 0 18)) with dsin in B. 2:{ unfold dsin, r. cbn [map seq INR Nat.mul Nat.add]. repeat (apply f_equal2; [lra|]). reflexivity. }
  unfold c in B at 1. rewrite sin0n in B. cbn [pow] in B. rewrite !Rmult_1_l in B.
  assert (B2 : Rabs (Series (fun k => sin_n k * u ^ k) - nest dsin u) <= 1 / 10 ^ 14).
  { eapply Rle_trans; [exact B|]. unfold c. rewrite Rabs_mult, (Rabs_pos_eq (u ^ 18)) by (apply pow_le; lra).
    pose proof sin_18 as J. pose proof (pow_incr u 32 18 U) as PI. assert (E : 32 ^ 18 = 1237940039285380274899124224) by (cbn; lra). rewrite E in PI. pose proof (Rabs_pos (sin_n 18)). assert (0 <= u ^ 18) by (apply pow_le; lra).
    apply Rle_trans with (2 * (3 / 10 ^ 42 * 1237940039285380274899124224)); [|lra]. apply Rmult_le_compat_l; [lra|]. apply Rmult_le_compat; auto. }
  match goal with |- Rabs (?a * ?b - ?a * ?c) <= _ => replace (a * b - a * c) with (a * (b - c)) by ring end. rewrite Rabs_mult. rewrite (Rabs_pos_eq theta) by (unfold theta, phi; lra).
  apply Rle_trans with (theta * (1 / 10 ^ 14)); [apply Rmult_le_compat_l; auto; unfold theta, phi; lra|unfold theta, phi; lra].
Qed.
Lemma nest_vals : Rabs (nest dcos (Rsqr theta) - 80246598530 / 10 ^ 11) <= 1 / 10 ^ 11 /\ Rabs (theta * nest dsin (Rsqr theta) - - (59669786529 / 10 ^ 11)) <= 1 / 10 ^ 11.
Proof. unfold dcos, dsin, theta, phi, Rsqr. cbn [map nest]. split; apply Rabs_le; lra. Qed.
Lemma near_trans a b c e f : Rabs (a - b) <= e -> Rabs (b - c) <= f -> Rabs (a - c) <= e + f.
Proof. intros A B. replace (a - c) with ((a - b) + (b - c)) by ring. eapply Rle_trans; [apply Rabs_triang|]. lra. Qed.
Lemma near_mul a a0 b b0 e f g : Rabs (a - a0) <= e -> Rabs (b - b0) <= f -> Rabs a0 * f + Rabs b0 * e + e * f <= g -> Rabs (a * b - a0 * b0) <= g.
Proof.
  intros A B G. replace (a * b - a0 * b0) with (a0 * (b - b0) + b0 * (a - a0) + (a - a0) * (b - b0)) by ring. eapply Rle_trans; [apply Rabs_triang|]. eapply Rle_trans; [apply Rplus_le_compat_r, Rabs_triang|]. rewrite !Rabs_mult.
  pose proof (Rabs_pos a0). pose proof (Rabs_pos b0). pose proof (Rabs_pos (a - a0)). pose proof (Rabs_pos (b - b0)). nra.
Qed.
Lemma near_add a a0 b b0 e f g : Rabs (a - a0) <= e -> Rabs (b - b0) <= f -> e + f <= g -> Rabs ((a + b) - (a0 + b0)) <= g.
Proof. intros A B G. replace (a + b - (a0 + b0)) with ((a - a0) + (b - b0)) by ring. eapply Rle_trans; [apply Rabs_triang|]. lra. Qed.
Lemma near_sub a a0 b b0 e f g : Rabs (a - a0) <= e -> Rabs (b - b0) <= f -> e + f <= g -> Rabs ((a - b) - (a0 - b0)) <= g.
Proof. intros A B G. replace (a - b - (a0 - b0)) with ((a - a0) - (b - b0)) by ring. eapply Rle_trans; [apply Rabs_triang|]. rewrite Rabs_Ropp. lra. Qed.
Lemma cos_v : Rabs (cos theta - 80246598530 / 10 ^ 11) <= 2 / 10 ^ 11.
Proof. destruct nest_vals as (A & _). pose proof (near_trans _ _ _ _ _ cos_theta A). lra. Qed.
Lemma sin_v : Rabs (sin theta - - (59669786529 / 10 ^ 11)) <= 2 / 10 ^ 11.
Proof. destruct nest_vals as (_ & A). pose proof (near_trans _ _ _ _ _ sin_theta A). lra. Qed.
Lemma jg_v : Rabs (jg 16 - 5865908671 / 10 ^ 11) <= 3 / 10 ^ 11.
Proof.
  pose proof (jg_nest 16 ltac:(lra)) as A. assert (B : Rabs (nest dens18 16 - 5865908671 / 10 ^ 11) <= 1 / 10 ^ 11) by (unfold dens18; cbn [map nest]; apply Rabs_le; lra). pose proof (near_trans _ _ _ _ _ A B). lra.
Qed.
Lemma ja1_18 : Rabs (PS_derive ja 18) <= 1 / 10 ^ 34.
Proof. unfold PS_derive. rewrite !ja_S, ja0. cbn [INR]. apply Rabs_le. lra. Qed.
Lemma jg1_v : Rabs (jg' 16 - 706198253 / 10 ^ 11) <= 3 / 10 ^ 11.
Proof.
  set (u := 16). set (c := fun k => PS_derive ja k * u ^ k). set (r := fun k => INR (S k) * INR (S (S (S k)))).
  assert (RP : forall k, 0 < r k) by (intros k; apply Rmult_lt_0_compat; apply lt_0_INR; lia).
  assert (C : forall k, c (S k) = - c k * u / r k). { intros k. unfold c, r, PS_derive. rewrite (ja_S (S k)), <- tech_pow_Rmult. field. repeat split; apply not_0_INR; lia. }
  assert (T : forall k, (18 <= k)%nat -> 2 * Rabs u <= r k). { intros k K. rewrite Rabs_pos_eq by (unfold u; lra). unfold r. apply le_INR in K. replace (INR 18) with 18 in K by (cbn; lra). rewrite !S_INR. unfold u. nra. }
  destruct (alt_series c r u 18 RP C T) as (_ & B). replace (Series c) with (jg' u) in B by reflexivity.
  replace (map r (seq 0 18)) with djg1 in B. 2:{ unfold djg1, r. cbn [map seq INR]. repeat (apply f_equal2; [lra|]). reflexivity. }
  assert (C0 : c 0%nat = - / 2). { unfold c, PS_derive. rewrite ja_S, ja0. cbn [INR pow]. field. } rewrite C0 in B.
  assert (B1 : Rabs (c 18%nat) <= 5 / 10 ^ 13). { unfold c. rewrite Rabs_mult, (Rabs_pos_eq (u ^ 18)) by (apply pow_le; unfold u; lra). assert (E : u ^ 18 = 4722366482869645213696) by (unfold u; cbn; lra). rewrite E. pose proof ja1_18. lra. }
  assert (B2 : Rabs (- / 2 * nest djg1 u - 706198253 / 10 ^ 11) <= 1 / 10 ^ 11) by (unfold djg1, u; cbn [map nest]; apply Rabs_le; lra). pose proof (near_trans _ _ _ _ _ B B2). lra.
Qed.
Lemma sqrt8_v : Rabs (sqrt 8 - 282842712475 / 10 ^ 11) <= 1 / 10 ^ 11.
Proof.
  apply Rabs_le. split.
  - assert (H : 282842712474 / 10 ^ 11 <= sqrt 8); [|lra]. rewrite <- (sqrt_square (282842712474 / 10 ^ 11)) by lra. apply sqrt_le_1; lra.
  - assert (H : sqrt 8 <= 282842712476 / 10 ^ 11); [|lra]. rewrite <- (sqrt_square (282842712476 / 10 ^ 11)) by lra. apply sqrt_le_1; lra.
Qed.
Lemma amp_v : Rabs (amp - 79788456057 / 10 ^ 11) <= 1 / 10 ^ 11.
Proof.
  unfold amp. apply Rabs_le. split.
  - assert (H : 79788456056 / 10 ^ 11 <= sqrt (636619772 / 1000000000)); [|lra]. rewrite <- (sqrt_square (79788456056 / 10 ^ 11)) by lra. apply sqrt_le_1; lra.
  - assert (H : sqrt (636619772 / 1000000000) <= 79788456058 / 10 ^ 11); [|lra]. rewrite <- (sqrt_square (79788456058 / 10 ^ 11)) by lra. apply sqrt_le_1; lra.
Qed.
Lemma Rabs_num a b : a <= b -> - a <= b -> Rabs a <= b. Proof. intros. apply Rabs_le. lra. Qed.
Lemma near_cst k a a0 e g : Rabs (a - a0) <= e -> Rabs k * e <= g -> Rabs (k * a - k * a0) <= g.
Proof. intros A G. rewrite <- Rmult_minus_distr_l, Rabs_mult. pose proof (Rabs_pos k). nra. Qed.
Definition Pv := 200359620643639 / 200000000000000.
Definition Sv := 23341201779669 / 500000000000000.
Definition P1v := - (883566641263 / 2000000000000000).
Definition S1v := - (23155607370599 / 4000000000000000).
Lemma at1 : Pz 1 = Pv /\ Sz 1 = Sv /\ P1z 1 = P1v /\ S1z 1 = S1v.
Proof. unfold Pz, Sz, P1z, S1z, p1, p2, p3, p4, q0, q1, q2, q3, q4, Pv, Sv, P1v, S1v. repeat split; field. Qed.
Definition cv := 80246598530 / 10 ^ 11.
Definition sv := - (59669786529 / 10 ^ 11).
Definition gv := 5865908671 / 10 ^ 11.
Definition g1v := 706198253 / 10 ^ 11.
Definition rv := 282842712475 / 10 ^ 11.
Definition av := 79788456057 / 10 ^ 11.
Ltac absn := repeat match goal with |- context [Rabs ?a] => let H := fresh in first [assert (H : 0 <= a) by (unfold Pv, Sv, P1v, S1v, cv, sv, gv, g1v, rv, av; lra); rewrite (Rabs_pos_eq a H) | assert (H : a <= 0) by (unfold Pv, Sv, P1v, S1v, cv, sv, gv, g1v, rv, av; lra); rewrite (Rabs_left1 a H)]; clear H end; unfold Pv, Sv, P1v, S1v, cv, sv, gv, g1v, rv, av; lra.
Lemma combo b d : Rabs b <= 11 / 10 -> Rabs d <= 11 / 10 -> Rabs ((cos theta * b - sin theta * d) - (cv * b - sv * d)) <= 5 / 10 ^ 11.
Proof.
  intros B D. replace (cos theta * b - sin theta * d - (cv * b - sv * d)) with ((cos theta - cv) * b - (sin theta - sv) * d) by ring. eapply Rle_trans; [apply Rabs_triang|]. rewrite Rabs_Ropp, !Rabs_mult.
  pose proof cos_v as C. pose proof sin_v as S. fold cv in C. fold sv in S. pose proof (Rabs_pos (cos theta - cv)). pose proof (Rabs_pos (sin theta - sv)). pose proof (Rabs_pos b). pose proof (Rabs_pos d). nra.
Qed.
Lemma start_wx : Rabs (wx 8) <= 3 / 10 ^ 9.
Proof.
  unfold wx, fu, fv, J1. fold theta. replace (8 * 8 / 4) with 16 by field. replace (8 / 8) with 1 by field. destruct at1 as (-> & -> & _ & _).
  assert (A : Rabs (8 / 2 * jg 16 - 8 / 2 * gv) <= 12 / 10 ^ 11) by (apply (near_cst _ _ _ (3 / 10 ^ 11)); [exact jg_v|absn]).
  assert (A2 : Rabs (sqrt 8 * (8 / 2 * jg 16) - rv * (8 / 2 * gv)) <= 4 / 10 ^ 10) by (apply (near_mul _ _ _ _ (1 / 10 ^ 11) (12 / 10 ^ 11)); [exact sqrt8_v|exact A|absn]).
  assert (B : Rabs ((cos theta * Pv - sin theta * Sv) - (cv * Pv - sv * Sv)) <= 5 / 10 ^ 11) by (apply combo; absn).
  assert (B2 : Rabs (amp * (cos theta * Pv - sin theta * Sv) - av * (cv * Pv - sv * Sv)) <= 1 / 10 ^ 10) by (apply (near_mul _ _ _ _ (1 / 10 ^ 11) (5 / 10 ^ 11)); [exact amp_v|exact B|absn]).
  pose proof (near_sub _ _ _ _ _ _ (5 / 10 ^ 10) A2 B2 ltac:(lra)) as D. assert (E : Rabs (rv * (8 / 2 * gv) - av * (cv * Pv - sv * Sv)) <= 2 / 10 ^ 9) by (apply Rabs_num; unfold Pv, Sv, cv, sv, gv, rv, av; lra).
  eapply Rle_trans; [apply (Rabs_triang_inv2 0)|] || idtac. set (w := sqrt 8 * (8 / 2 * jg 16) - amp * (cos theta * Pv - sin theta * Sv)) in *. set (w0 := rv * (8 / 2 * gv) - av * (cv * Pv - sv * Sv)) in *. replace w with ((w - w0) + w0) by ring. eapply Rle_trans; [apply Rabs_triang|]. lra.
Qed.
Lemma start_wx1 : Rabs (wx1 8) <= 6 / 10 ^ 9.
Proof.
  unfold wx1, fu1, fv1, J1, J1'. fold theta. replace (8 * 8 / 4) with 16 by field. replace (8 / 8) with 1 by field. destruct at1 as (-> & -> & -> & ->).
  assert (S8 : 0 < sqrt 8) by (apply sqrt_lt_R0; lra). replace (/ (2 * sqrt 8)) with (sqrt 8 * (1 / 16)). 2:{ pose proof (sqrt_sqrt 8 ltac:(lra)) as Q. apply (Rmult_eq_reg_r (2 * sqrt 8)); [|lra]. rewrite Rinv_l by lra. replace (sqrt 8 * (1 / 16) * (2 * sqrt 8)) with (1 / 8 * (sqrt 8 * sqrt 8)) by field. rewrite Q. field. }
  replace (sqrt 8 * (1 / 16) * (8 / 2 * jg 16) + sqrt 8 * (jg 16 / 2 + 16 * jg' 16)) with (sqrt 8 * (3 / 4 * jg 16 + 16 * jg' 16)) by field.
  assert (A : Rabs ((3 / 4 * jg 16 + 16 * jg' 16) - (3 / 4 * gv + 16 * g1v)) <= 6 / 10 ^ 10).
  { apply (near_add _ _ _ _ (3 / 10 ^ 11) (48 / 10 ^ 11)); [apply (near_cst _ _ _ (3 / 10 ^ 11)); [exact jg_v|absn]|apply (near_cst _ _ _ (3 / 10 ^ 11)); [exact jg1_v|absn]|lra]. }
  assert (A2 : Rabs (sqrt 8 * (3 / 4 * jg 16 + 16 * jg' 16) - rv * (3 / 4 * gv + 16 * g1v)) <= 2 / 10 ^ 9) by (apply (near_mul _ _ _ _ (1 / 10 ^ 11) (6 / 10 ^ 10)); [exact sqrt8_v|exact A|absn]).
  assert (B : Rabs ((cos theta * (P1v - Sv) - sin theta * (Pv + S1v)) - (cv * (P1v - Sv) - sv * (Pv + S1v))) <= 5 / 10 ^ 11) by (apply combo; absn).
  assert (B2 : Rabs (amp * (cos theta * (P1v - Sv) - sin theta * (Pv + S1v)) - av * (cv * (P1v - Sv) - sv * (Pv + S1v))) <= 1 / 10 ^ 10) by (apply (near_mul _ _ _ _ (1 / 10 ^ 11) (5 / 10 ^ 11)); [exact amp_v|exact B|absn]).
  pose proof (near_sub _ _ _ _ _ _ (3 / 10 ^ 9) A2 B2 ltac:(lra)) as D. assert (E : Rabs (rv * (3 / 4 * gv + 16 * g1v) - av * (cv * (P1v - Sv) - sv * (Pv + S1v))) <= 2 / 10 ^ 9) by (apply Rabs_num; unfold Pv, Sv, P1v, S1v, cv, sv, gv, g1v, rv, av; lra).
  set (w := sqrt 8 * (3 / 4 * jg 16 + 16 * jg' 16) - amp * (cos theta * (P1v - Sv) - sin theta * (Pv + S1v))) in *. set (w0 := rv * (3 / 4 * gv + 16 * g1v) - av * (cv * (P1v - Sv) - sv * (Pv + S1v))) in *. replace w with ((w - w0) + w0) by ring. eapply Rle_trans; [apply Rabs_triang|]. lra.
Qed.
Lemma exp_1_5 : exp (12 / 8) <= 52 / 10.
Proof.
  assert (E : exp (12 / 8) * exp (12 / 8) = exp 1 * exp 1 * exp 1) by (rewrite <- !exp_plus; f_equal; field). pose proof exp_le_3. pose proof (exp_pos 1). pose proof (exp_pos (12 / 8)).
  assert (exp 1 * exp 1 <= 9) by nra. assert (exp 1 * exp 1 * exp 1 <= 27) by nra. destruct (Rle_or_lt (exp (12 / 8)) (52 / 10)); auto. exfalso. nra.
Qed.
Lemma wx_small x : 8 <= x -> Rabs (wx x) <= 1 / 10 ^ 7.
Proof.
  intros X. pose proof (Ly_mono x X) as L. unfold Ly in L. pose proof start_wx as W. pose proof start_wx1 as W1. pose proof exp_1_5 as E8. assert (E0 : 1 <= exp (12 / x)). { rewrite <- exp_0. left. apply exp_increasing. apply Rdiv_lt_0_compat; lra. }
  assert (SQ : forall a b, Rabs a <= b -> a * a <= b * b). { intros a b A. rewrite <- (Rabs_pos_eq (a * a)) by nra. rewrite Rabs_mult. pose proof (Rabs_pos a). nra. }
  apply SQ in W. apply SQ in W1. assert (EN8 : En 8 <= 5 / 10 ^ 17) by (unfold En; lra). assert (EN0 : 0 <= En 8) by (unfold En; nra). assert (ENx : wx x * wx x <= En x) by (unfold En; nra). assert (ENx0 : 0 <= En x) by (unfold En; nra).
  pose proof (exp_pos (12 / 8)). assert (G : gam = 256 / 10 ^ 16 / 12) by reflexivity. assert (G2 : gam <= 214 / 10 ^ 17) by (rewrite G; lra). assert (G0 : 0 < gam) by (rewrite G; lra). clear G.
  assert (L2 : En x + gam <= (En x + gam) * exp (12 / x)) by nra. assert (L3 : (En 8 + gam) * exp (12 / 8) <= (En 8 + gam) * (52 / 10)) by nra.
  apply Rabs_num; destruct (Rle_or_lt (wx x) (1 / 10 ^ 7)); destruct (Rle_or_lt (- wx x) (1 / 10 ^ 7)); auto; exfalso; nra.
Qed.
Lemma far_is x : 8 <= x -> bessel_far x * sqrt x = fv x.
Proof.
  intros X. unfold bessel_far, fv, amp. cbv zeta. unfold Rdiv at 1. assert (I : 0 < / x) by (apply Rinv_0_lt_compat; lra).
  rewrite sqrt_mult by lra. rewrite sqrt_inv. assert (S : 0 < sqrt x) by (apply sqrt_lt_R0; lra). fold phi. unfold Pz, Sz, p1, p2, p3, p4, q0, q1, q2, q3, q4. set (z := 8 / x). set (a := sqrt _). field. lra.
Qed.
Theorem far_accuracy x : 8 <= x -> Rabs (bessel_far x - J1 x) <= 4 / 10 ^ 8.
Proof.
  intros X. pose proof (wx_small x X) as W. unfold wx, fu in W. rewrite <- (far_is x X) in W. replace (sqrt x * J1 x - bessel_far x * sqrt x) with (sqrt x * (J1 x - bessel_far x)) in W by ring. rewrite Rabs_mult, (Rabs_pos_eq (sqrt x)) in W by apply sqrt_pos.
  assert (S : 28 / 10 <= sqrt x). { rewrite <- (sqrt_square (28 / 10)) by lra. apply sqrt_le_1; lra. } rewrite Rabs_minus_sym. pose proof (Rabs_pos (J1 x - bessel_far x)). nra.
Qed.
