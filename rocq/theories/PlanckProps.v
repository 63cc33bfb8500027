(* Further laws of plancks_law (C83): the formula pinned down independently of its constants' grouping. *)
From Coq Require Import Reals Lra Lia.
From Coquelicot Require Import Coquelicot.
From Verif Require Import Common SpectralModel.
Open Scope R_scope.

Lemma exp_minus_1_pos x : 0 < x -> 0 < exp x - 1.
Proof. intros H. pose proof (exp_ineq1 x ltac:(lra)). lra. Qed.
(* Wien's scaling law: making a body s times as hot shifts its spectrum to wavelengths s times as short, and multiplies the spectral radiance by s^5 *)
Theorem C83_wien_scaling : forall s temp lam, 0 < s -> 0 < temp -> 0 < lam -> planck (s * temp) (lam / s) = s ^ 5 * planck temp lam.
Proof.
  intros s t l Hs Ht Hl. unfold planck. cbv zeta. replace (l / s * (s * t)) with (l * t) by (field; lra).
  set (c2 := _ / K_BOLTZ). assert (E : 0 < exp (c2 / (l * t)) - 1).
  { apply exp_minus_1_pos. apply Rdiv_lt_0_compat; [|nra]. unfold c2, H_PLANCK, SPEED_OF_LIGHT, K_BOLTZ. apply Rdiv_lt_0_compat; lra. }
  set (e := exp _ - 1) in *. field. repeat split; lra.
Qed.
Print Assumptions C83_wien_scaling.
(* the Rayleigh-Jeans limit: for hot bodies the radiance per kelvin tends to 2 c k / lambda^4 *)
Theorem C83_rayleigh_jeans : forall lam, 0 < lam -> is_lim (fun T => planck T lam / T) p_infty (2 * SPEED_OF_LIGHT * K_BOLTZ / lam ^ 4).
Proof.
  intros l Hl. set (a := H_PLANCK * SPEED_OF_LIGHT / K_BOLTZ / l).
  assert (HA : 0 < a). { unfold a, H_PLANCK, SPEED_OF_LIGHT, K_BOLTZ. repeat apply Rdiv_lt_0_compat; lra. }
  assert (L : is_lim (fun T => / ((exp (a * / T) - 1) / (a * / T))) p_infty (/ 1)).
  { change (Finite (/ 1)) with (Rbar_inv (Finite 1)). apply is_lim_inv; [|intros Q; injection Q; lra].
    apply (is_lim_comp (fun x => (exp x - 1) / x) (fun T => a * / T) p_infty 1 0).
    - apply is_lim_div_expm1_0.
    - replace (Finite 0) with (Rbar_mult a (Rbar_inv p_infty)) by (cbn; f_equal; ring). apply is_lim_scal_l. apply is_lim_inv; [apply is_lim_id|discriminate].
    - exists 0. intros T HT Q. injection Q. assert (0 < a * / T) by (apply Rmult_lt_0_compat; [lra|apply Rinv_0_lt_compat; lra]). lra. }
  assert (K : Finite (2 * SPEED_OF_LIGHT * K_BOLTZ / l ^ 4) = Rbar_mult (2 * SPEED_OF_LIGHT * K_BOLTZ / l ^ 4) (/ 1)) by (cbn; f_equal; field; lra).
  rewrite K. apply (is_lim_scal_l _ (2 * SPEED_OF_LIGHT * K_BOLTZ / l ^ 4)) in L.
  eapply is_lim_ext_loc; [|exact L]. exists 0. intros T HT. unfold planck. cbv zeta.
  replace (H_PLANCK * SPEED_OF_LIGHT / K_BOLTZ / (l * T)) with (a * / T) by (unfold a; field; repeat split; try lra; unfold K_BOLTZ; lra).
  assert (0 < exp (a * / T) - 1) by (apply exp_minus_1_pos; apply Rmult_lt_0_compat; [lra|apply Rinv_0_lt_compat; lra]).
  replace (2 * H_PLANCK * SPEED_OF_LIGHT * SPEED_OF_LIGHT) with (2 * SPEED_OF_LIGHT * K_BOLTZ * (a * l)) by (unfold a; field; unfold K_BOLTZ; lra).
  set (e := exp _ - 1) in *. field. repeat split; lra.
Qed.
Print Assumptions C83_rayleigh_jeans.
Example C83_sun : 0 < planck 5772 (500 / 10 ^ 9) /\ planck (2 * 5772) (500 / 10 ^ 9 / 2) = 32 * planck 5772 (500 / 10 ^ 9).
Proof.
  split; [|rewrite C83_wien_scaling by lra; lra]. unfold planck. cbv zeta. apply Rdiv_lt_0_compat; [unfold H_PLANCK, SPEED_OF_LIGHT; lra|].
  apply exp_minus_1_pos. unfold H_PLANCK, SPEED_OF_LIGHT, K_BOLTZ. repeat apply Rdiv_lt_0_compat; lra.
Qed.
