(* The energy argument of BesselFar, the starting values at 8, and the accuracy of the code's Bessel function on the whole line. *)
From Verif Require Import Common Vec3 AiryModel PolyCheck BesselSeries BesselNear BesselFar.
From Coq Require Import Reals Lra Lia List ZArith Psatz.
From Coquelicot Require Import Coquelicot.
Import ListNotations.
Open Scope R_scope.
Definition amp := sqrt (636619772 / 1000000000).
Definition phi := 2356194491 / 1000000000.
(* sqrt x times the code's value, and its derivative *)
Definition fv x := amp * (cos (x - phi) * Pz (8 / x) - sin (x - phi) * Sz (8 / x)).
Definition fv1 x := amp * (cos (x - phi) * (P1z (8 / x) - Sz (8 / x)) - sin (x - phi) * (Pz (8 / x) + S1z (8 / x))).
Lemma cos_d x : is_derive (fun t => cos (t - phi)) x (- sin (x - phi)). Proof. auto_derive; auto. unfold Rminus. ring. Qed.
Lemma sin_d x : is_derive (fun t => sin (t - phi)) x (cos (x - phi)). Proof. auto_derive; auto. unfold Rminus. ring. Qed.
Lemma d_sub (f g : R -> R) (x a b : R) : is_derive f x a -> is_derive g x b -> is_derive (fun t => f t - g t) x (a - b).
Proof. intros F G. apply (is_derive_minus f g x a b F G). Qed.
Lemma d_cst (f : R -> R) (k x a : R) : is_derive f x a -> is_derive (fun t => k * f t) x (k * a).
Proof. intros F. apply (is_derive_scal f x k a F). Qed.
Lemma fv_d x : x <> 0 -> is_derive fv x (fv1 x).
Proof.
  intros X. unfold fv, fv1. eapply d_eq.
  - apply (d_cst (fun t => cos (t - phi) * Pz (8 / t) - sin (t - phi) * Sz (8 / t))). apply (d_sub (fun t => cos (t - phi) * Pz (8 / t)) (fun t => sin (t - phi) * Sz (8 / t))).
    + apply (d_mul (fun t => cos (t - phi)) (fun t => Pz (8 / t))); [apply cos_d|apply P_d; auto].
    + apply (d_mul (fun t => sin (t - phi)) (fun t => Sz (8 / t))); [apply sin_d|apply S_d; auto].
  - cbv beta. ring.
Qed.
Definition residual x := amp * (cos (x - phi) * R1z (8 / x) - sin (x - phi) * R2z (8 / x)).
Lemma fv1_d x : x <> 0 -> is_derive fv1 x (- (1 - 3 / 256 * (8 / x) ^ 2) * fv x + residual x).
Proof.
  intros X. unfold fv1. eapply d_eq.
  - apply (d_cst (fun t => cos (t - phi) * (P1z (8 / t) - Sz (8 / t)) - sin (t - phi) * (Pz (8 / t) + S1z (8 / t)))). apply (d_sub (fun t => cos (t - phi) * (P1z (8 / t) - Sz (8 / t))) (fun t => sin (t - phi) * (Pz (8 / t) + S1z (8 / t)))).
    + apply (d_mul (fun t => cos (t - phi)) (fun t => P1z (8 / t) - Sz (8 / t))); [apply cos_d|apply (d_sub (fun t => P1z (8 / t)) (fun t => Sz (8 / t))); [apply P1_d|apply S_d]; auto].
    + apply (d_mul (fun t => sin (t - phi)) (fun t => Pz (8 / t) + S1z (8 / t))); [apply sin_d|apply (d_add (fun t => Pz (8 / t)) (fun t => S1z (8 / t))); [apply P_d|apply S1_d]; auto].
  - cbv beta. unfold residual, fv, R1z, R2z. ring.
Qed.
(* sqrt x times J1 *)
Definition fu x := sqrt x * J1 x.
Definition fu1 x := / (2 * sqrt x) * J1 x + sqrt x * J1' x.
Lemma sqrt_d x : 0 < x -> is_derive sqrt x (/ (2 * sqrt x)).
Proof. intros X. auto_derive; auto. field. apply Rgt_not_eq, sqrt_lt_R0; auto. Qed.
Lemma fu_d x : 0 < x -> is_derive fu x (fu1 x).
Proof. intros X. unfold fu, fu1. apply (d_mul sqrt J1); [apply sqrt_d; auto|apply J1_d]. Qed.
Lemma isqrt_d x : 0 < x -> is_derive (fun t => / (2 * sqrt t)) x (- / (4 * x * sqrt x)).
Proof.
  intros X. assert (S0 : 0 < sqrt x) by (apply sqrt_lt_R0; auto). auto_derive; [repeat split; auto; lra|]. pose proof (sqrt_sqrt x ltac:(lra)) as Q. set (s := sqrt x) in *. rewrite <- Q. field. lra.
Qed.
Lemma fu1_d x : 0 < x -> is_derive fu1 x (- (1 - 3 / 256 * (8 / x) ^ 2) * fu x).
Proof.
  intros X. unfold fu1. assert (S0 : 0 < sqrt x) by (apply sqrt_lt_R0; auto). eapply d_eq.
  - apply (d_add (fun t => / (2 * sqrt t) * J1 t) (fun t => sqrt t * J1' t)); [apply (d_mul (fun t => / (2 * sqrt t)) J1); [apply isqrt_d; auto|apply J1_d]|apply (d_mul sqrt J1'); [apply sqrt_d; auto|apply J1_d'; lra]].
  - cbv beta. unfold fu. pose proof (sqrt_sqrt x ltac:(lra)) as Q. set (s := sqrt x) in *. set (j := J1 x). set (k := J1' x). rewrite <- Q. field. lra.
Qed.
(* the energy *)
Definition wx x := fu x - fv x.
Definition wx1 x := fu1 x - fv1 x.
Definition En x := wx x * wx x + wx1 x * wx1 x.
Definition gam := 256 / 10 ^ 16 / 12.
Definition Ly x := (En x + gam) * exp (12 / x).
Lemma wx_d x : 0 < x -> is_derive wx x (wx1 x).
Proof. intros X. apply (d_sub fu fv); [apply fu_d; auto|apply fv_d; lra]. Qed.
Lemma wx1_d x : 0 < x -> is_derive wx1 x (- (1 - 3 / 256 * (8 / x) ^ 2) * wx x - residual x).
Proof. intros X. eapply d_eq; [apply (d_sub fu1 fv1); [apply fu1_d; auto|apply fv1_d; lra]|]. unfold wx. ring. Qed.
Lemma En_d x : 0 < x -> is_derive En x (2 * (3 / 256 * (8 / x) ^ 2) * wx x * wx1 x - 2 * wx1 x * residual x).
Proof.
  intros X. unfold En. eapply d_eq; [apply (d_add (fun t => wx t * wx t) (fun t => wx1 t * wx1 t)); [apply (d_mul wx wx)|apply (d_mul wx1 wx1)]; (apply wx_d || apply wx1_d); auto|]. cbv beta. ring.
Qed.
Lemma Ly_d x : 0 < x -> is_derive Ly x (exp (12 / x) * (2 * (3 / 256 * (8 / x) ^ 2) * wx x * wx1 x - 2 * wx1 x * residual x - 12 / x ^ 2 * (En x + gam))).
Proof.
  intros X. unfold Ly. eapply d_eq.
  - eapply (d_mul (fun t => En t + gam) (fun t => exp (12 / t))); [eapply (d_add En (fun _ => gam) x _ 0); [apply En_d; auto|auto_derive; auto]|]. apply (d_comp exp (fun t => 12 / t) x (exp (12 / x)) (- (12 / x ^ 2))); [apply is_derive_exp|auto_derive; [lra|field; lra]].
  - cbv beta. ring.
Qed.
Lemma amp_range : 0 <= amp <= 8 / 10.
Proof. unfold amp. split; [apply sqrt_pos|]. rewrite <- (sqrt_square (8 / 10)) by lra. apply sqrt_le_1; lra. Qed.
Lemma residual_small x : 8 <= x -> Rabs (residual x) <= 8 / 10 ^ 9 * (8 / x) ^ 2.
Proof.
  intros X. unfold residual. assert (Z : 0 < 8 / x <= 1). { split; [apply Rdiv_lt_0_compat; lra|]. apply (Rmult_le_reg_r x); [lra|]. unfold Rdiv. rewrite Rmult_assoc, Rinv_l by lra. lra. }
  destruct (residuals _ Z) as (A & B). set (z := 8 / x) in *. assert (ZZ : 0 < z ^ 2) by (cbn; nra). pose proof amp_range as AR. pose proof (COS_bound (x - phi)) as CB. pose proof (SIN_bound (x - phi)) as SB.
  set (c := cos (x - phi)) in *. set (s := sin (x - phi)) in *. assert (C1 : Rabs c <= 1) by (apply Rabs_le; lra). assert (S1 : Rabs s <= 1) by (apply Rabs_le; lra).
  rewrite Rabs_mult, (Rabs_pos_eq amp) by lra. assert (T : Rabs (c * R1z z - s * R2z z) <= 4 / 10 ^ 9 * z ^ 2 + 6 / 10 ^ 9 * z ^ 2).
  { eapply Rle_trans; [apply Rabs_triang|]. rewrite Rabs_Ropp, !Rabs_mult. pose proof (Rabs_pos (R1z z)). pose proof (Rabs_pos (R2z z)). pose proof (Rabs_pos c). pose proof (Rabs_pos s). nra. }
  pose proof (Rabs_pos (c * R1z z - s * R2z z)). nra.
Qed.
Lemma sq_ineq b d : 0 < d -> 2 * Rabs b <= d + b * b / d.
Proof.
  intros D. replace (b * b) with (Rabs b * Rabs b) by (rewrite <- Rabs_mult; apply Rabs_pos_eq; apply Rle_0_sqr). generalize (Rabs b). intros t.
  assert (H : 0 <= (t - d) * (t - d) / d) by (apply Rmult_le_pos; [apply Rle_0_sqr|left; apply Rinv_0_lt_compat; auto]). replace ((t - d) * (t - d) / d) with (t * t / d - 2 * t + d) in H by (field; lra). lra.
Qed.
Lemma energy_ineq a b r k : 0 < k -> Rabs r <= 8 / 10 ^ 9 * (64 * k) -> 2 * (3 / 256 * (64 * k)) * a * b - 2 * b * r - 12 * k * (a * a + b * b + gam) <= 0.
Proof.
  intros K RS. assert (A2 : 0 <= a * a) by apply Rle_0_sqr. assert (B2 : 0 <= b * b) by apply Rle_0_sqr.
  assert (H1 : 2 * (3 / 256 * (64 * k)) * a * b <= 3 / 4 * k * (a * a + b * b)). { assert (HQ : 0 <= (a - b) * (a - b)) by apply Rle_0_sqr. apply Rle_trans with (3 / 4 * k * (2 * a * b)); [right; field|apply Rmult_le_compat_l; lra]. }
  assert (H2 : - 2 * b * r <= Rabs r * (5 / 10 ^ 8 + b * b / (5 / 10 ^ 8))).
  { apply Rle_trans with (Rabs r * (2 * Rabs b)); [|apply Rmult_le_compat_l; [apply Rabs_pos|apply sq_ineq; lra]]. pose proof (Rle_abs (- (b * r))) as L. rewrite Rabs_Ropp, Rabs_mult in L. lra. }
  assert (H3 : Rabs r * (5 / 10 ^ 8 + b * b / (5 / 10 ^ 8)) <= 8 / 10 ^ 9 * (64 * k) * (5 / 10 ^ 8 + b * b / (5 / 10 ^ 8))) by (apply Rmult_le_compat_r; auto; lra).
  unfold gam. assert (0 <= k * (a * a)) by (apply Rmult_le_pos; lra). assert (0 <= k * (b * b)) by (apply Rmult_le_pos; lra). lra.
Qed.
Lemma Ly_decr x : 8 <= x -> exp (12 / x) * (2 * (3 / 256 * (8 / x) ^ 2) * wx x * wx1 x - 2 * wx1 x * residual x - 12 / x ^ 2 * (En x + gam)) <= 0.
Proof.
  intros X. pose proof (residual_small x X) as RS. pose proof (exp_pos (12 / x)) as EP. assert (I : 0 < / x ^ 2) by (apply Rinv_0_lt_compat; cbn; nra).
  replace ((8 / x) ^ 2) with (64 * / x ^ 2) in * by (cbn; field; lra). pose proof (energy_ineq (wx x) (wx1 x) (residual x) _ I RS) as H. unfold En. change (12 / x ^ 2) with (12 * / x ^ 2). 
  revert H EP. generalize (exp (12 / x)). intros e H EP. rewrite <- (Rmult_0_r e). apply Rmult_le_compat_l; lra.
Qed.
Lemma Ly_mono x : 8 <= x -> Ly x <= Ly 8.
Proof.
  intros X. destruct (Req_dec x 8) as [->|N]; [lra|].
  destruct (MVT_gen Ly 8 x (fun t => exp (12 / t) * (2 * (3 / 256 * (8 / t) ^ 2) * wx t * wx1 t - 2 * wx1 t * residual t - 12 / t ^ 2 * (En t + gam)))) as (c & C & E).
  - intros t. rewrite Rmin_left, Rmax_right by lra. intros T. apply Ly_d. lra.
  - intros t. rewrite Rmin_left, Rmax_right by lra. intros T. apply continuity_pt_filterlim. apply (ex_derive_continuous Ly). eexists. apply Ly_d. lra.
  - rewrite Rmin_left, Rmax_right in C by lra. cbv beta in E. pose proof (Ly_decr c ltac:(lra)). nra.
Qed.
