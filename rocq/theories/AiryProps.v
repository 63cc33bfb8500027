(* C127: the diffraction pattern of the circular aperture. *)
From Verif Require Import Common Vec3 AiryModel PolyCheck BesselSeries BesselNear BesselFar BesselEnergy BesselStart.
From Coq Require Import Reals Lra Lia List ZArith Psatz Machin.
From Coquelicot Require Import Coquelicot.
From Verif Require Import BesselNear.
Import ListNotations.
Open Scope R_scope.

(** specification: the pattern (2 J1(a) / a)^2, with its limit 1 in the middle *)
Definition airy_pattern (a v : R) : Prop := (a = 0 /\ v = 1) \/ (a <> 0 /\ exists j, is_J1 a j /\ v = (2 * j / a) ^ 2).

Lemma near_num x : bessel_near x = x * (num (x * x) / den (x * x)).
Proof. unfold bessel_near, num, den. cbv zeta. unfold Rdiv. ring. Qed.
Lemma far_small x : 8 <= x -> bessel_far x * bessel_far x * x <= 71 / 100.
Proof.
  intros X. pose proof (far_is x X) as F. assert (E : bessel_far x * bessel_far x * x = fv x * fv x). { rewrite <- F. pose proof (sqrt_sqrt x ltac:(lra)) as Q. rewrite <- Q at 3. ring. }
  rewrite E. unfold fv. assert (Z : 0 < 8 / x <= 1). { split; [apply Rdiv_lt_0_compat; lra|]. apply (Rmult_le_reg_r x); [lra|]. unfold Rdiv. rewrite Rmult_assoc, Rinv_l by lra. lra. }
  set (z := 8 / x) in *. assert (A : amp * amp = 636619772 / 1000000000) by (unfold amp; apply sqrt_sqrt; lra).
  assert (P0 : 1 <= Pz z <= 10019 / 10000). { unfold Pz, p1, p2, p3, p4. assert (0 <= z ^ 2 <= 1) by (cbn; nra). replace (z ^ 4) with (z ^ 2 * z ^ 2) by ring. replace (z ^ 6) with (z ^ 2 * z ^ 2 * z ^ 2) by ring. replace (z ^ 8) with (z ^ 2 * z ^ 2 * z ^ 2 * z ^ 2) by ring. set (y := z ^ 2) in *. assert (0 <= y * y <= 1) by nra. assert (y * y <= y) by nra. assert (0 <= y * y * y <= 1) by nra. assert (0 <= y * y * y * y <= y * y * y) by nra. assert (y * y * y <= y) by nra. lra. }
  assert (S0 : 0 <= Sz z <= 469 / 10000). { unfold Sz, q0, q1, q2, q3, q4. replace (_ + _) with (z * (4687499995 / 100000000000 + -2002690873 / 10000000000000 * z ^ 2 + 8449199096 / 1000000000000000 * (z ^ 2 * z ^ 2) + -88228987 / 100000000000000 * (z ^ 2 * z ^ 2 * z ^ 2) + 105787412 / 1000000000000000 * (z ^ 2 * z ^ 2 * z ^ 2 * z ^ 2))) by ring. assert (0 <= z ^ 2 <= 1) by (cbn; nra). set (y := z ^ 2) in *. assert (0 <= y * y <= 1) by nra. assert (y * y <= y) by nra. assert (0 <= y * y * y <= 1) by nra. assert (0 <= y * y * y * y <= y * y * y) by nra. assert (y * y * y <= y) by nra. set (t := _ + _ + _). assert (0 <= t <= 4689 / 100000) by (unfold t; lra). nra. }
  pose proof (sin2_cos2 (x - phi)) as SC. unfold Rsqr in SC. set (c := cos (x - phi)) in *. set (s := sin (x - phi)) in *.
  replace (amp * (c * Pz z - s * Sz z) * (amp * (c * Pz z - s * Sz z))) with (amp * amp * ((c * Pz z - s * Sz z) * (c * Pz z - s * Sz z))) by ring. rewrite A.
  assert (CS : (c * Pz z - s * Sz z) * (c * Pz z - s * Sz z) <= Pz z * Pz z + Sz z * Sz z). { assert (0 <= (c * Sz z + s * Pz z) * (c * Sz z + s * Pz z)) by apply Rle_0_sqr. assert ((c * Pz z - s * Sz z) * (c * Pz z - s * Sz z) + (c * Sz z + s * Pz z) * (c * Sz z + s * Pz z) = (s * s + c * c) * (Pz z * Pz z + Sz z * Sz z)) as Q by ring. rewrite SC in Q. lra. }
  assert (Pz z * Pz z + Sz z * Sz z <= 1007 / 1000) by nra. lra.
Qed.
(* 2 b / a for the code's b *)
Lemma ratio_close a : 0 < a -> Rabs (2 * bessel_j1 a / a - 2 * J1 a / a) <= 2 / 10 ^ 8 /\ Rabs (2 * bessel_j1 a / a) <= 1 + 1 / 10 ^ 9 /\ Rabs ((2 * bessel_j1 a / a) ^ 2 - (2 * J1 a / a) ^ 2) <= 5 / 10 ^ 9.
Proof.
  intros A. unfold bessel_j1. cbv zeta; rewrite (Rabs_pos_eq a) by lra. unfold Rltb. destruct (Rlt_dec a 8) as [L|L].
  - pose proof (near_accuracy a ltac:(lra)) as N. destruct (near_poly (a * a) ltac:(split; nra)) as (_ & B). assert (D : Rabs (2 * bessel_near a / a - 2 * J1 a / a) <= 16 / 10 ^ 10).
    { replace (2 * bessel_near a / a - 2 * J1 a / a) with ((bessel_near a - J1 a) * (2 * / a)) by (field; lra). assert (I : 0 < / a) by (apply Rinv_0_lt_compat; lra). rewrite Rabs_mult, (Rabs_pos_eq (2 * / a)) by lra. apply Rle_trans with (a * (8 / 10 ^ 10) * (2 * / a)); [apply Rmult_le_compat_r; lra|]. right. field. lra. }
    assert (C : 2 * bessel_near a / a = 2 * num (a * a) / den (a * a)) by (rewrite near_num; pose proof (den_ge (a * a) ltac:(nra)); field; lra). rewrite <- C in B.
    set (p := 2 * bessel_near a / a) in *. set (q := 2 * J1 a / a) in *. split; [lra|]. split; auto. replace (p ^ 2 - q ^ 2) with ((p - q) * (2 * p - (p - q))) by ring. rewrite Rabs_mult. assert (S : Rabs (2 * p - (p - q)) <= 2 * (1 + 1 / 10 ^ 9) + 16 / 10 ^ 10) by (eapply Rle_trans; [apply Rabs_triang|]; rewrite Rabs_Ropp, Rabs_mult, (Rabs_pos_eq 2) by lra; lra). pose proof (Rabs_pos (p - q)). pose proof (Rabs_pos (2 * p - (p - q))). nra.
  - assert (A8 : 8 <= a) by lra. pose proof (far_accuracy a A8) as N. pose proof (far_small a A8) as F. assert (I : 0 < / a <= / 8) by (split; [apply Rinv_0_lt_compat|apply Rinv_le_contravar]; lra).
    assert (D : Rabs (2 * bessel_far a / a - 2 * J1 a / a) <= 1 / 10 ^ 8). { replace (2 * bessel_far a / a - 2 * J1 a / a) with ((bessel_far a - J1 a) * (2 * / a)) by (field; lra). rewrite Rabs_mult, (Rabs_pos_eq (2 * / a)) by lra. pose proof (Rabs_pos (bessel_far a - J1 a)). nra. }
    assert (BF : Rabs (bessel_far a) <= 3 / 10). { apply Rabs_num; destruct (Rle_or_lt (bessel_far a) (3 / 10)); destruct (Rle_or_lt (- bessel_far a) (3 / 10)); auto; exfalso; nra. }
    assert (B : Rabs (2 * bessel_far a / a) <= 75 / 1000). { replace (2 * bessel_far a / a) with (bessel_far a * (2 * / a)) by (field; lra). rewrite Rabs_mult, (Rabs_pos_eq (2 * / a)) by lra. pose proof (Rabs_pos (bessel_far a)). nra. }
    set (p := 2 * bessel_far a / a) in *. set (q := 2 * J1 a / a) in *. split; [lra|]. split; [lra|]. replace (p ^ 2 - q ^ 2) with ((p - q) * (2 * p - (p - q))) by ring. rewrite Rabs_mult. assert (S : Rabs (2 * p - (p - q)) <= 2 * (75 / 1000) + 1 / 10 ^ 8) by (eapply Rle_trans; [apply Rabs_triang|]; rewrite Rabs_Ropp, Rabs_mult, (Rabs_pos_eq 2) by lra; lra). pose proof (Rabs_pos (p - q)). pose proof (Rabs_pos (2 * p - (p - q))). nra.
Qed.
Lemma J1_small a : 0 < a <= 1 -> Rabs ((2 * J1 a / a) ^ 2 - 1) <= a.
Proof.
  intros A. unfold J1. replace (2 * (a / 2 * jg (a * a / 4)) / a) with (jg (a * a / 4)) by (field; lra). set (u := a * a / 4). assert (U : 0 <= u <= a / 4) by (unfold u; nra).
  set (c := fun k => ja k * u ^ k). set (r := fun k => INR (S k) * INR (S (S k))). assert (RP : forall k, 0 < r k) by (intros k; apply Rmult_lt_0_compat; apply lt_0_INR; lia).
  assert (C : forall k, c (S k) = - c k * u / r k). { intros k. unfold c, r. rewrite ja_S, <- tech_pow_Rmult. field. split; apply not_0_INR; lia. }
  assert (T : forall k, (1 <= k)%nat -> 2 * Rabs u <= r k). { intros k K. rewrite Rabs_pos_eq by lra. unfold r. apply le_INR in K. replace (INR 1) with 1 in K by reflexivity. rewrite !S_INR. nra. }
  destruct (alt_series c r u 1 RP C T) as (_ & B). change (Series c) with (jg u) in B. cbn [seq map nest] in B. assert (C0 : c 0%nat = 1) by (unfold c; rewrite ja0; cbn; lra). assert (C1 : c 1%nat = - u / 2) by (unfold c; rewrite ja_S, ja0; cbn; field). rewrite C0, C1 in B.
  replace (jg u - 1 * (1 - u / r 0%nat * 0)) with (jg u - 1) in B by ring. rewrite (Rabs_left1 (- u / 2)) in B by lra.
  assert (B' : - (a / 4) <= jg u - 1 <= a / 4) by (split; [apply Rabs_le_between in B|apply Rabs_le_between in B]; lra). apply Rabs_le. split; nra.
Qed.

(** C127 *)
(* the Bessel function, on the arguments it is called with *)
Theorem C127_bessel : forall x v, 0 <= x -> is_J1 x v -> Rabs (bessel_j1 x - v) <= 4 / 10 ^ 8.
Proof.
  intros x v X J. apply is_J1_unique in J. subst v. unfold bessel_j1. cbv zeta. rewrite (Rabs_pos_eq x) by auto. unfold Rltb. destruct (Rlt_dec x 8) as [L|L]; [|apply far_accuracy; lra]. pose proof (near_accuracy x ltac:(lra)). lra.
Qed.
(* for every aperture, focal length, pitch, wavelength and pixel offset the value is the diffraction pattern of the aperture *)
Theorem C127_pattern : forall focal aperture pitch_x pitch_y wavelength x y v,
  0 < focal -> 0 < aperture -> 1 / 10 ^ 9 <= wavelength -> 1 / 100 <= focal / aperture ->
  let r := sqrt ((x * pitch_x) ^ 2 + (y * pitch_y) ^ 2) in
  airy_pattern (PI * aperture * r / (wavelength * focal)) v ->
  Rabs (airy_evaluate (f_number focal aperture) pitch_x pitch_y wavelength x y - v) <= 5 / 10 ^ 9.
Proof.
  intros f d px py l x y v F D L NN r P. unfold airy_evaluate, f_number. replace (sqrt _) with r by (unfold r; f_equal; ring). assert (R0 : 0 <= r) by apply sqrt_pos. set (n := f / d) in *.
  assert (AE : PI * d * r / (l * f) = PI * r / (l * n)) by (unfold n; field; lra). rewrite AE in P. pose proof PI_RGT_0 as PI0. pose proof PI_4 as PI4. assert (LN : 1 / 10 ^ 11 <= l * n) by nra. assert (LN0 : 0 < l * n) by nra.
  unfold Rltb. destruct (Rlt_dec r (1 / 10 ^ 20)) as [S|S].
  - destruct P as [(_ & ->)|(NZ & j & J & ->)]; [rewrite Rminus_eq_0, Rabs_R0; lra|]. apply is_J1_unique in J. subst j. set (a := PI * r / (l * n)) in *. assert (A : 0 <= a <= 4 / 10 ^ 9).
    { unfold a. split; [apply Rmult_le_pos; [nra|left; apply Rinv_0_lt_compat; auto]|]. apply (Rmult_le_reg_r (l * n)); auto. unfold Rdiv at 1. rewrite Rmult_assoc, Rinv_l by lra. nra. }
    rewrite Rabs_minus_sym. assert (a <> 0) by auto. pose proof (J1_small a ltac:(lra)) as Q. assert (A9 : a <= 4 / 10 ^ 9) by lra. clear - Q A9 A. lra.
  - assert (A : 0 < PI * r / (l * n)) by (apply Rdiv_lt_0_compat; nra). destruct P as [(Z & _)|(_ & j & J & ->)]; [lra|]. apply is_J1_unique in J. subst j. set (a := PI * r / (l * n)) in *. destruct (ratio_close a A) as (_ & _ & C). replace (2 * bessel_j1 a / a * (2 * bessel_j1 a / a)) with ((2 * bessel_j1 a / a) ^ 2) by ring. exact C.
Qed.
(* the values are intensities: never negative, 1 in the middle and nowhere above it (to nine digits) *)
Theorem C127_range : forall n pitch_x pitch_y wavelength x y, 0 < n -> 0 < wavelength ->
  0 <= airy_evaluate n pitch_x pitch_y wavelength x y <= 1 + 3 / 10 ^ 9 /\ airy_evaluate n pitch_x pitch_y wavelength 0 0 = 1.
Proof.
  intros n px py l x y N L. split.
  - unfold airy_evaluate. set (r := sqrt _). unfold Rltb. destruct (Rlt_dec r (1 / 10 ^ 20)) as [S|S]; [lra|]. assert (A : 0 < PI * r / (l * n)) by (pose proof PI_RGT_0; apply Rdiv_lt_0_compat; nra). cbv zeta. set (a := PI * r / (l * n)) in *. destruct (ratio_close a A) as (_ & B & _). set (p := 2 * bessel_j1 a / a) in *.
    apply Rabs_le_between in B. split; nra.
  - unfold airy_evaluate. replace (sqrt _) with 0. 2:{ replace (0 * px * (0 * px) + 0 * py * (0 * py)) with 0 by ring. rewrite sqrt_0. reflexivity. } unfold Rltb. destruct (Rlt_dec 0 (1 / 10 ^ 20)) as [|C]; [reflexivity|]. exfalso. apply C. lra.
Qed.
(* far from the middle it falls off with the cube of the distance *)
Theorem C127_tail : forall n pitch_x pitch_y wavelength x y, 0 < n -> 0 < wavelength -> 1 / 10 ^ 18 <= wavelength * n ->
  let r := sqrt ((x * pitch_x) ^ 2 + (y * pitch_y) ^ 2) in
  8 <= PI * r / (wavelength * n) -> airy_evaluate n pitch_x pitch_y wavelength x y <= 3 / (PI * r / (wavelength * n)) ^ 3.
Proof.
  intros n px py l x y N L LN r A. unfold airy_evaluate. replace (sqrt _) with r by (unfold r; f_equal; ring). set (a := PI * r / (l * n)) in *.
  unfold Rltb at 1. destruct (Rlt_dec r (1 / 10 ^ 20)) as [S|S].
  - exfalso. pose proof PI_RGT_0. pose proof PI_4. assert (LP : 0 < l * n) by nra. assert (E : a * (l * n) = PI * r) by (unfold a; field; nra). assert (0 <= r) by apply sqrt_pos. nra.
  - cbv zeta. unfold bessel_j1, Rltb. rewrite (Rabs_pos_eq a) by lra. destruct (Rlt_dec a 8) as [C|C]; [lra|]. pose proof (far_small a A) as F. replace (2 * bessel_far a / a * (2 * bessel_far a / a)) with (4 * (bessel_far a * bessel_far a * a) / a ^ 3) by (field; lra). unfold Rdiv. apply Rmult_le_compat_r; [left; apply Rinv_0_lt_compat, pow_lt; lra|lra].
Qed.
(* only the distance on the sensor counts *)
Theorem C127_round : forall n pitch_x pitch_y wavelength x y x' y', (x * pitch_x) ^ 2 + (y * pitch_y) ^ 2 = (x' * pitch_x) ^ 2 + (y' * pitch_y) ^ 2 ->
  airy_evaluate n pitch_x pitch_y wavelength x y = airy_evaluate n pitch_x pitch_y wavelength x' y'.
Proof. intros n px py l x y x' y' E. unfold airy_evaluate. replace (x * px * (x * px) + y * py * (y * py)) with (x' * px * (x' * px) + y' * py * (y' * py)) by lra. reflexivity. Qed.
(* the first dark ring is at 1.22 wavelengths times the f-number *)
Lemma PI_b : 314 / 100 <= PI <= 3142 / 1000.
Proof.
  pose proof (PI_2_3_7_ineq 3) as (A & B). unfold tg_alt, PI_2_3_7_tg, Ratan_seq in A, B. cbn [sum_f_R0 Nat.mul Nat.add pow INR] in A, B. lra.
Qed.
Definition dnum : list Z := [789505923500000000; -48479370620000000; 891783431700000; -6281793040000; 15080183030]%Z.
Lemma num_d y : derivable_pt_lim num y (- (peval dnum y / 10 ^ 8)).
Proof. apply is_derive_Reals. unfold num, dnum. cbn [peval]. auto_derive; auto. field. Qed.
Lemma dnum_pos y : 0 <= y <= 16 -> 0 < peval dnum y.
Proof. intros Y. assert (C : check_from dnum 1 1 8 = true) by reflexivity. apply (check_from_pos dnum 1 8 ltac:(lia) 1 C y ltac:(lia)). cbn. lra. Qed.
Lemma num_decr a b : 0 <= a < b -> b <= 16 -> num b < num a.
Proof.
  intros A B. destruct (MVT_cor2 num (fun y => - (peval dnum y / 10 ^ 8)) a b) as (c & E & C); [lra|intros; apply num_d|]. pose proof (dnum_pos c ltac:(lra)) as P. assert (0 < peval dnum c / 10 ^ 8) by (apply Rdiv_lt_0_compat; lra). nra.
Qed.
Lemma num_root : exists y0, 146 / 10 < y0 < 147 / 10 /\ num y0 = 0.
Proof.
  assert (C : continuity (fun y => - num y)). { apply continuity_opp. intros y. apply derivable_continuous_pt. exists (- (peval dnum y / 10 ^ 8)). apply num_d. }
  destruct (IVT (fun y => - num y) (146 / 10) (147 / 10) C ltac:(lra)) as (y0 & Y & Z); [unfold num; lra|unfold num; lra|]. exists y0. assert (num y0 = 0) by lra. split; auto.
  assert (y0 <> 146 / 10) by (intros ->; unfold num in *; lra). assert (y0 <> 147 / 10) by (intros ->; unfold num in *; lra). lra.
Qed.
Theorem C127_dark_ring : forall n pitch_x pitch_y wavelength, 0 < n -> 0 < pitch_x -> 0 < wavelength -> 1 / 10 ^ 18 <= wavelength * n ->
  exists x, 121 / 100 * (wavelength * n) < x * pitch_x < 123 / 100 * (wavelength * n) /\ airy_evaluate n pitch_x pitch_y wavelength x 0 = 0 /\
            (forall x', 0 <= x' < x -> 0 < airy_evaluate n pitch_x pitch_y wavelength x' 0).
Proof.
  intros n px py l N P L LN. destruct num_root as (y0 & Y & Z). set (s := sqrt y0). assert (SS : s * s = y0) by (apply sqrt_sqrt; lra). assert (S0 : 0 < s) by (apply sqrt_lt_R0; lra). assert (SB : 382 / 100 < s < 3835 / 1000) by nra. pose proof PI_b as PB. assert (LN0 : 0 < l * n) by nra.
  set (k := l * n) in *. exists (s * k / PI / px).
  assert (XP : s * k / PI / px * px = s * k / PI) by (field; lra). assert (EV : forall x, 0 <= x -> 0 <= x * px -> airy_evaluate n px py l x 0 = if Rltb (x * px) (1 / 10 ^ 20) then 1 else (2 * bessel_j1 (PI * (x * px) / k) / (PI * (x * px) / k)) * (2 * bessel_j1 (PI * (x * px) / k) / (PI * (x * px) / k))).
  { intros x X XX. unfold airy_evaluate. replace (x * px * (x * px) + 0 * py * (0 * py)) with ((x * px) * (x * px)) by ring. rewrite sqrt_square by auto. reflexivity. }
  assert (K1 : 0 < s * k / PI) by (apply Rdiv_lt_0_compat; nra). assert (KB : 121 / 100 * k < s * k / PI < 123 / 100 * k). { split; apply (Rmult_lt_reg_r PI); try lra; replace (s * k / PI * PI) with (s * k) by (field; lra); nra. }
  rewrite XP. split; [exact KB|]. split.
  - rewrite EV; [|left; repeat apply Rdiv_lt_0_compat; nra|rewrite XP; lra]. rewrite XP. unfold Rltb at 1. destruct (Rlt_dec (s * k / PI) (1 / 10 ^ 20)) as [C|_]; [exfalso; nra|]. replace (PI * (s * k / PI) / k) with s by (field; lra). unfold bessel_j1, Rltb. cbv zeta. rewrite (Rabs_pos_eq s) by lra. destruct (Rlt_dec s 8) as [_|C]; [|lra]. rewrite near_num, SS, Z. unfold Rdiv. ring.
  - intros x (X0 & X). assert (XL : x * px < s * k / PI). { rewrite <- XP. apply Rmult_lt_compat_r; auto. } rewrite EV by nra. unfold Rltb at 1. destruct (Rlt_dec (x * px) (1 / 10 ^ 20)) as [_|C]; [lra|].
    set (a := PI * (x * px) / k). assert (A : 0 < a < s). { unfold a. split; [apply Rdiv_lt_0_compat; nra|]. apply (Rmult_lt_reg_r k); auto. unfold Rdiv. rewrite Rmult_assoc, Rinv_l, Rmult_1_r by lra. assert (PI * (x * px) < PI * (s * k / PI)) by (apply Rmult_lt_compat_l; lra). replace (PI * (s * k / PI)) with (s * k) in * by (field; lra). lra. }
    unfold bessel_j1, Rltb. cbv zeta. rewrite (Rabs_pos_eq a) by lra. destruct (Rlt_dec a 8) as [_|C2]; [|lra]. rewrite near_num. assert (AY : a * a < y0) by (rewrite <- SS; nra). assert (A2 : 0 <= a * a) by nra. pose proof (num_decr (a * a) y0 ltac:(lra) ltac:(lra)) as NP. rewrite Z in NP. pose proof (den_ge (a * a) A2) as DP.
    replace (2 * (a * (num (a * a) / den (a * a))) / a) with (2 * (num (a * a) / den (a * a))) by (field; lra). assert (0 < num (a * a) / den (a * a)) by (apply Rdiv_lt_0_compat; lra). nra.
Qed.
(* an F/4 lens at 550 nm on 5 um pixels, one pixel off axis: the argument is PI * 5 / 2.2 *)
Example C127_nonvacuous : exists v, airy_pattern (PI * (25 / 1000) * sqrt ((1 * (5 / 10 ^ 6)) ^ 2 + (0 * (5 / 10 ^ 6)) ^ 2) / (55 / 10 ^ 8 * (1 / 10))) v /\
  Rabs (airy_evaluate (f_number (1 / 10) (25 / 1000)) (5 / 10 ^ 6) (5 / 10 ^ 6) (55 / 10 ^ 8) 1 0 - v) <= 5 / 10 ^ 9 /\ 8 <= PI * (5 / 10 ^ 6) * 2 / (55 / 10 ^ 8 * 4) /\
  is_J1 0 0.
Proof.
  set (a := PI * (25 / 1000) * sqrt ((1 * (5 / 10 ^ 6)) ^ 2 + (0 * (5 / 10 ^ 6)) ^ 2) / (55 / 10 ^ 8 * (1 / 10))). assert (A : a <> 0). { unfold a. apply Rgt_not_eq. pose proof PI_RGT_0. apply Rdiv_lt_0_compat; [|lra]. apply Rmult_lt_0_compat; [lra|]. apply sqrt_lt_R0. lra. }
  assert (P : airy_pattern a ((2 * J1 a / a) ^ 2)) by (right; split; auto; exists (J1 a); split; auto; apply J1_is).
  exists ((2 * J1 a / a) ^ 2). split; [exact P|]. split; [|split].
  - apply C127_pattern; try lra. exact P.
  - pose proof PI_b. lra.
  - replace 0 with (J1 0) at 2 by (unfold J1; lra). apply J1_is.
Qed.
