(* The code's Bessel function beyond 8: both it and J1, times sqrt x, nearly solve the same differential equation; the energy of the difference stays small. *)
From Verif Require Import Common Vec3 AiryModel PolyCheck BesselSeries BesselNear.
From Coq Require Import Reals Lra Lia List ZArith Psatz.
From Coquelicot Require Import Coquelicot.
Import ListNotations.
Open Scope R_scope.

(** the two polynomials of the code in z = 8 / x, their derivatives by x, and the residuals of the differential equation *)
Definition p1 := 183105 / 100000000.
Definition p2 := -3516396496 / 100000000000000.
Definition p3 := 2457520174 / 1000000000000000.
Definition p4 := -240337019 / 1000000000000000.
Definition q0 := 4687499995 / 100000000000.
Definition q1 := -2002690873 / 10000000000000.
Definition q2 := 8449199096 / 1000000000000000.
Definition q3 := -88228987 / 100000000000000.
Definition q4 := 105787412 / 1000000000000000.
Definition Pz z := 1 + p1 * z ^ 2 + p2 * z ^ 4 + p3 * z ^ 6 + p4 * z ^ 8.
Definition P1z z := - (2 * p1 * z ^ 3 + 4 * p2 * z ^ 5 + 6 * p3 * z ^ 7 + 8 * p4 * z ^ 9) / 8.
Definition P2z z := (6 * p1 * z ^ 4 + 20 * p2 * z ^ 6 + 42 * p3 * z ^ 8 + 72 * p4 * z ^ 10) / 64.
Definition Sz z := q0 * z + q1 * z ^ 3 + q2 * z ^ 5 + q3 * z ^ 7 + q4 * z ^ 9.
Definition S1z z := - (q0 * z ^ 2 + 3 * q1 * z ^ 4 + 5 * q2 * z ^ 6 + 7 * q3 * z ^ 8 + 9 * q4 * z ^ 10) / 8.
Definition S2z z := (2 * q0 * z ^ 3 + 12 * q1 * z ^ 5 + 30 * q2 * z ^ 7 + 56 * q3 * z ^ 9 + 90 * q4 * z ^ 11) / 64.
Definition R1z z := P2z z - 2 * S1z z - 3 / 256 * z ^ 2 * Pz z.
Definition R2z z := 2 * P1z z + S2z z - 3 / 256 * z ^ 2 * Sz z.
Definition far_scale : Z := 1073741824000000000000000%Z.
Definition far_a_plus : list Z := [4281545523200000; 201975870259200; -254383960883200; 83762929254400; -7744001129472]%Z.
Definition far_a_minus : list Z := [4308389068800000; -201975870259200; 254383960883200; -83762929254400; 7744001129472]%Z.
Definition far_b_plus : list Z := [8957984768000000; -5313081502597120; 2940505123454976; -589279293784064; 38672492630016]%Z.
Definition far_b_minus : list Z := [3926917120000000; 5313081502597120; -2940505123454976; 589279293784064; -38672492630016]%Z.
Ltac coefs := unfold R1z, R2z, Pz, P1z, P2z, Sz, S1z, S2z, p1, p2, p3, p4, q0, q1, q2, q3, q4, far_scale.
Lemma far_a_plus_ok z : z ^ 2 * peval far_a_plus (8 * z ^ 2) = IZR far_scale * (4 / 10 ^ 9 * z ^ 2 + R1z z).
Proof. coefs. unfold far_a_plus. cbn [peval]. field. Qed.
Lemma far_a_minus_ok z : z ^ 2 * peval far_a_minus (8 * z ^ 2) = IZR far_scale * (4 / 10 ^ 9 * z ^ 2 - R1z z).
Proof. coefs. unfold far_a_minus. cbn [peval]. field. Qed.
Lemma far_b_plus_ok z : z ^ 3 * peval far_b_plus (8 * z ^ 2) = IZR far_scale * (6 / 10 ^ 9 * z ^ 3 + R2z z).
Proof. coefs. unfold far_b_plus. cbn [peval]. field. Qed.
Lemma far_b_minus_ok z : z ^ 3 * peval far_b_minus (8 * z ^ 2) = IZR far_scale * (6 / 10 ^ 9 * z ^ 3 - R2z z).
Proof. coefs. unfold far_b_minus. cbn [peval]. field. Qed.
Lemma far_checked : check_from far_a_plus 1 1 4 = true /\ check_from far_a_minus 1 1 4 = true /\ check_from far_b_plus 1 1 4 = true /\ check_from far_b_minus 1 1 4 = true.
Proof. repeat split; reflexivity. Qed.
Lemma residuals z : 0 < z <= 1 -> Rabs (R1z z) <= 4 / 10 ^ 9 * z ^ 2 /\ Rabs (R2z z) <= 6 / 10 ^ 9 * z ^ 2.
Proof.
  intros Z. destruct far_checked as (C1 & C2 & C3 & C4). assert (Y : 0 < z ^ 2 <= 1) by (cbn; nra). assert (Y3 : 0 < z ^ 3 <= z ^ 2) by (cbn in *; nra).
  assert (B : 0 <= 8 * z ^ 2 <= 8) by lra. set (t := 8 * z ^ 2) in *.
  pose proof (check_from_pos far_a_plus 1 4 ltac:(lia) 1 C1 t ltac:(lia) ltac:(cbn; lra)) as K1. pose proof (check_from_pos far_a_minus 1 4 ltac:(lia) 1 C2 t ltac:(lia) ltac:(cbn; lra)) as K2.
  pose proof (check_from_pos far_b_plus 1 4 ltac:(lia) 1 C3 t ltac:(lia) ltac:(cbn; lra)) as K3. pose proof (check_from_pos far_b_minus 1 4 ltac:(lia) 1 C4 t ltac:(lia) ltac:(cbn; lra)) as K4.
  pose proof (far_a_plus_ok z) as E1. pose proof (far_a_minus_ok z) as E2. pose proof (far_b_plus_ok z) as E3. pose proof (far_b_minus_ok z) as E4. fold t in E1, E2, E3, E4.
  assert (S0 : 0 < IZR far_scale) by (apply IZR_lt; reflexivity).
  assert (PM : forall a b c, 0 < a -> 0 < b -> a * b = IZR far_scale * c -> 0 < c) by (intros a b c HA HB E; assert (0 < a * b) by nra; apply (Rmult_lt_reg_l (IZR far_scale)); lra).
  apply PM in E1; auto; [|lra]. apply PM in E2; auto; [|lra]. apply PM in E3; auto; [|lra]. apply PM in E4; auto; [|lra].
  split; apply Rabs_le; lra.
Qed.

(** derivatives *)
Lemma z_d x : x <> 0 -> is_derive (fun t : R => 8 / t) x (- (8 / x) ^ 2 / 8).
Proof. intros X. auto_derive; auto. field. auto. Qed.
Lemma poly_d (f f' : R -> R) x : x <> 0 -> (forall z, is_derive f z (f' z)) -> is_derive (fun t => f (8 / t)) x (- (8 / x) ^ 2 / 8 * f' (8 / x)).
Proof. intros X F. apply (d_comp f (fun t => 8 / t)); [apply F|apply z_d; auto]. Qed.
Ltac pd := intros X; eapply d_eq; [eapply (poly_d _ _ _ X); intros z; coefs; auto_derive; [auto|reflexivity]|]; coefs; cbv beta; field; auto.
Lemma P_d x : x <> 0 -> is_derive (fun t => Pz (8 / t)) x (P1z (8 / x)). Proof. pd. Qed.
Lemma P1_d x : x <> 0 -> is_derive (fun t => P1z (8 / t)) x (P2z (8 / x)). Proof. pd. Qed.
Lemma S_d x : x <> 0 -> is_derive (fun t => Sz (8 / t)) x (S1z (8 / x)). Proof. pd. Qed.
Lemma S1_d x : x <> 0 -> is_derive (fun t => S1z (8 / t)) x (S2z (8 / x)). Proof. pd. Qed.
