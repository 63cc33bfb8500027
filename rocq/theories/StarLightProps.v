(* C142: the light of a catalogue star. C143: bringing a star's position to J2000. *)
From Coq Require Import Reals List Lra Lia Psatz.
From Verif Require Import Common Vec3 SpectralModel SpectralSpec SpectralProofs2 LightModel LightSpec LightProofs LightProps PhysicsProps UnresolvedProps MotionModel SkyProps StarLightModel.
From Coquelicot Require Import Coquelicot.
Import ListNotations.
Open Scope R_scope.

(** C142 *)
(* what a photon counter behind a Johnson V filter (a Gaussian at 551 nm of 38 nm) counts of a spectrum: trapezoidal sum over 1000 wavelengths from 350 to 850 nm *)
Definition grid (i : nat) : R := 350 * nano + INR i * (500 * nano / 999).
Definition counted (spectrum : R -> R) (l : R) : R := exp (- (l - 551 * nano) ^ 2 / (2 * (38 * nano) ^ 2)) * spectrum l / (H_PLANCK * SPEED_OF_LIGHT / l).
Definition v_photons (spectrum : R -> R) : R := fold_left (fun s i => s + (counted spectrum (grid i) + counted spectrum (grid (i + 1))) / 2 * (grid (i + 1) - grid i)) (seq 0 999) 0.

Lemma rft_photons t : radiance_from_temp t = v_photons (planck t).
Proof.
  unfold radiance_from_temp, v_photons, trapezoid. cbv zeta.
  assert (L : List.length (sample_grid (350 * nano) (850 * nano) 1000) = 1000%nat) by (unfold sample_grid; rewrite map_length, seq_length; reflexivity).
  rewrite L. change (1000 - 1)%nat with 999%nat.
  assert (G : forall i, (i < 1000)%nat -> nth i (sample_grid (350 * nano) (850 * nano) 1000) 0 = grid i).
  { intros i Hi. unfold sample_grid. rewrite (nth_map_any _ 0 0%nat) by (rewrite seq_length; exact Hi). rewrite seq_nth by exact Hi. unfold grid. change (0 + i)%nat with i. change (1000 - 1)%nat with 999%nat.
    replace (INR 999) with 999 by (rewrite INR_IZR_INZ; reflexivity). lra. }
  assert (E : forall l s, (forall i, In i l -> (i < 999)%nat) ->
    fold_left (fun acc i => acc + / 2 * (nth i (map (fun x => vband_response x * planck t x / photon_energy x) (sample_grid (350 * nano) (850 * nano) 1000)) 0 +
       nth (i + 1) (map (fun x => vband_response x * planck t x / photon_energy x) (sample_grid (350 * nano) (850 * nano) 1000)) 0) *
       (nth (i + 1) (sample_grid (350 * nano) (850 * nano) 1000) 0 - nth i (sample_grid (350 * nano) (850 * nano) 1000) 0)) l s =
    fold_left (fun s i => s + (counted (planck t) (grid i) + counted (planck t) (grid (i + 1))) / 2 * (grid (i + 1) - grid i)) l s).
  { induction l as [|i l IH]; intros s Hl; [reflexivity|]. cbn [fold_left]. rewrite IH by (intros; apply Hl; cbn; auto). f_equal.
    assert (Hi : (i < 999)%nat) by (apply Hl; cbn; auto).
    rewrite !(nth_map_any _ 0 0) by (rewrite L; lia). rewrite !G by lia.
    assert (C : forall x, vband_response x * planck t x / photon_energy x = counted (planck t) x).
    { intros x. unfold counted, vband_response, photon_energy. cbv zeta. do 3 f_equal. f_equal; ring. }
    rewrite !C. field. }
  apply E. intros i Hi. apply in_seq in Hi. lia.
Qed.
Lemma v_photons_scale c f : v_photons (fun l => f l * c) = v_photons f * c.
Proof.
  unfold v_photons. replace 0 with (0 * c) at 1 by ring. generalize 0 as s. generalize (seq 0 999) as l. induction l as [|i l IH]; intros s; [reflexivity|].
  cbn [fold_left]. rewrite <- IH. f_equal. unfold counted. unfold Rdiv. ring.
Qed.
Lemma rft_pos t : 0 < t -> 0 < radiance_from_temp t.
Proof.
  intros Ht. pose proof nano_pos. unfold radiance_from_temp. apply grid_trap_pos; [lra|lia|]. intros x Hx. destruct consts_pos as (H1 & H2 & H3).
  apply Rdiv_lt_0_compat; [apply Rmult_lt_0_compat; [apply exp_pos|apply planck_pos; lra]|]. unfold photon_energy. apply Rdiv_lt_0_compat; [apply Rmult_lt_0_compat; auto|lra].
Qed.
Lemma planck_neg t lam : t < 0 -> 0 < lam -> planck t lam < 0.
Proof.
  intros Ht Hl. destruct consts_pos as (H1 & H2 & H3). unfold planck. cbv zeta.
  assert (A : 0 < 2 * H_PLANCK * SPEED_OF_LIGHT * SPEED_OF_LIGHT / lam ^ 5) by (apply Rdiv_lt_0_compat; [repeat apply Rmult_lt_0_compat; lra|apply pow_lt; auto]).
  assert (B : exp (H_PLANCK * SPEED_OF_LIGHT / K_BOLTZ / (lam * t)) < 1).
  { rewrite <- exp_0. apply exp_increasing. assert (0 < H_PLANCK * SPEED_OF_LIGHT / K_BOLTZ) by (apply Rdiv_lt_0_compat; auto; apply Rmult_lt_0_compat; auto).
    assert (lam * t < 0) by nra. unfold Rdiv at 1. assert (/ (lam * t) < 0) by (apply Rinv_lt_0_compat; auto). nra. }
  unfold Rdiv at 1. assert (/ (exp (H_PLANCK * SPEED_OF_LIGHT / K_BOLTZ / (lam * t)) - 1) < 0) by (apply Rinv_lt_0_compat; lra). nra.
Qed.
Lemma trapezoid_opp x y : trapezoid x (map Ropp y) = - trapezoid x y.
Proof.
  assert (M : forall j, nth j (map Ropp y) 0 = - nth j y 0) by (intros j; rewrite <- (Ropp_0) at 1; apply map_nth).
  assert (H : forall l s, fold_left (fun acc i => acc + / 2 * (nth i (map Ropp y) 0 + nth (i + 1) (map Ropp y) 0) * (nth (i + 1) x 0 - nth i x 0)) l (- s) =
    - fold_left (fun acc i => acc + / 2 * (nth i y 0 + nth (i + 1) y 0) * (nth (i + 1) x 0 - nth i x 0)) l s).
  { induction l as [|i l IH]; intros s; [reflexivity|]. cbn [fold_left]. rewrite <- IH. f_equal. rewrite !M. ring. }
  unfold trapezoid. rewrite <- H. f_equal. ring.
Qed.
Lemma grid_trap_neg f lo hi n : lo < hi -> (2 <= n)%nat -> (forall x, lo <= x -> f x < 0) -> trapezoid (sample_grid lo hi n) (map f (sample_grid lo hi n)) < 0.
Proof.
  intros Hb Hn Hf. pose proof (grid_trap_pos (fun x => - f x) lo hi n Hb Hn) as P. rewrite <- (map_map f Ropp), trapezoid_opp in P. cut (0 < - trapezoid (sample_grid lo hi n) (map f (sample_grid lo hi n))); [lra|].
  apply P. intros x Hx. specialize (Hf x Hx). lra.
Qed.
Lemma rft_neg t : t < 0 -> radiance_from_temp t < 0.
Proof.
  intros Ht. pose proof nano_pos. unfold radiance_from_temp. apply grid_trap_neg; [lra|lia|]. intros x Hx. destruct consts_pos as (H1 & H2 & H3).
  pose proof (planck_neg t x Ht ltac:(lra)). assert (0 < vband_response x) by (apply exp_pos). assert (0 < photon_energy x) by (unfold photon_energy; apply Rdiv_lt_0_compat; [apply Rmult_lt_0_compat; auto|lra]).
  assert (0 < / photon_energy x) by (apply Rinv_0_lt_compat; auto). unfold Rdiv. assert (vband_response x * planck t x < 0) by nra. nra.
Qed.
Lemma div_back a x : a <> 0 -> a * (x / a) = x.
Proof. intros H. field. exact H. Qed.
Local Opaque radiance_from_temp v_photons black_body.
Lemma temperature_pos bv : - (62 / 92) < bv -> 0 < color_temperature bv.
Proof.
  intros H. unfold color_temperature. assert (0 < 92 / 100 * bv + 17 / 10) by lra. assert (0 < 92 / 100 * bv + 62 / 100) by lra.
  assert (0 < 1 / (92 / 100 * bv + 17 / 10)) by (apply Rdiv_lt_0_compat; lra). assert (0 < 1 / (92 / 100 * bv + 62 / 100)) by (apply Rdiv_lt_0_compat; lra). lra.
Qed.
Lemma temperature_decr a b : - (62 / 92) < a -> a < b -> color_temperature b < color_temperature a.
Proof.
  intros Ha Hab. unfold color_temperature.
  assert (1 / (92 / 100 * b + 17 / 10) < 1 / (92 / 100 * a + 17 / 10)) by (unfold Rdiv; rewrite !Rmult_1_l; apply Rinv_lt_contravar; [apply Rmult_lt_0_compat|]; lra).
  assert (1 / (92 / 100 * b + 62 / 100) < 1 / (92 / 100 * a + 62 / 100)) by (unfold Rdiv; rewrite !Rmult_1_l; apply Rinv_lt_contravar; [apply Rmult_lt_0_compat|]; lra).
  lra.
Qed.

(* A star with both Tycho magnitudes and a colour that Ballesteros' formula is good for gets a positive temperature and size, and its spectrum through a V filter counts as many photons as
   its V magnitude (Tycho to Johnson: V = VT - 0.090 (BT - VT)) stands for: 8.75e9 per second and square metre at V = 0, a hundredth of it five magnitudes fainter; every bin of its
   irradiance is positive *)
Theorem C142_calibrated : forall b v, - (62 / 92) < 85 / 100 * (b - v) -> exists t w,
  process_magnitude (Some b) (Some v) = Some (v - 9 / 100 * (b - v), t, w) /\ 0 < t /\ 0 < w /\
  v_photons (fun l => planck t l * w) = 875 * 10 ^ 7 * Rpower 10 (- (4 / 10) * (v - 9 / 100 * (b - v))) /\
  forall bins, positive_layout bins -> exists e, catalogue_irradiance bins (Some b) (Some v) = Some e /\ List.length e = List.length bins /\ forall x, In x e -> 0 < x.
Proof.
  intros b v C. exists (color_temperature (85 / 100 * (b - v))). eexists. split; [reflexivity|].
  pose proof (temperature_pos _ C) as T. pose proof (rft_pos _ T) as P.
  assert (V : forall m, 0 < v_band_irradiance m) by (intros m; unfold v_band_irradiance; apply Rmult_lt_0_compat; [lra|apply exp_pos]).
  assert (W : 0 < v_band_irradiance (v - 9 / 100 * (b - v)) / radiance_from_temp (color_temperature (85 / 100 * (b - v)))) by (apply Rdiv_lt_0_compat; auto).
  split; auto. split; auto. split.
  - rewrite v_photons_scale, <- rft_photons. apply div_back. lra.
  - intros bins L. eexists. split; [reflexivity|]. unfold star_irradiance, each. split; [rewrite map_length; apply bb_length|].
    intros x Hx. apply in_map_iff in Hx as (y & <- & Hy). apply Rmult_lt_0_compat; [|exact W]. apply (In_nth _ _ 0) in Hy as (i & Hi & <-). rewrite bb_length in Hi. apply bb_nth; auto; lia.
Qed.
(* five magnitudes fainter in both bands: a hundredth of the irradiance in every bin, whatever the colour *)
Theorem C142_five_magnitudes : forall bins b v, let five := option_map (fun m => m + 5) in
  catalogue_irradiance bins (five b) (five v) = option_map (map (fun x => x / 100)) (catalogue_irradiance bins b v).
Proof.
  intros bins b v. cbv zeta.
  assert (V : forall m, v_band_irradiance (m + 5) = v_band_irradiance m / 100) by (intros m; apply (C83_magnitudes m)).
  assert (K : forall m t, star_irradiance bins t (v_band_irradiance (m + 5) / radiance_from_temp t) = map (fun x => x / 100) (star_irradiance bins t (v_band_irradiance m / radiance_from_temp t))).
  { intros m t. unfold star_irradiance, each. rewrite map_map. apply map_ext. intros x. rewrite V. unfold Rdiv. ring. }
  destruct b as [b|], v as [v|]; cbn [option_map]; unfold catalogue_irradiance, process_magnitude, magnitude_color; try reflexivity.
  - replace (v + 5 - 9 / 100 * (b + 5 - (v + 5))) with (v - 9 / 100 * (b - v) + 5) by ring. replace (b + 5 - (v + 5)) with (b - v) by ring. rewrite K. reflexivity.
  - rewrite K. reflexivity.
  - rewrite K. reflexivity.
Qed.
(* bluer is hotter, and bigger stars of one colour are brighter; without any magnitude nothing is set *)
Theorem C142_bluer_is_hotter : (forall b v b' v' m t w m' t' w', - (62 / 92) < 85 / 100 * (b - v) -> b - v < b' - v' ->
    process_magnitude (Some b) (Some v) = Some (m, t, w) -> process_magnitude (Some b') (Some v') = Some (m', t', w') -> t' < t) /\
  (forall b v, process_magnitude b v = None <-> b = None /\ v = None) /\
  (forall m, exists t w, process_magnitude None (Some m) = Some (m, t, w) /\ t = color_temperature (3 / 10) /\ 0 < t /\ 0 < w /\ v_photons (fun l => planck t l * w) = 875 * 10 ^ 7 * Rpower 10 (- (4 / 10) * m)).
Proof.
  split; [|split].
  - intros b v b' v' m t w m' t' w' C H E E'. injection E as <- <- <-. injection E' as <- <- <-. apply temperature_decr; lra.
  - intros [b|] [v|]; split; try discriminate; intros H; try (destruct H; discriminate); auto.
  - intros m. eexists _, _. split; [reflexivity|]. assert (T : 0 < color_temperature (3 / 10)) by (apply temperature_pos; lra). pose proof (rft_pos _ T) as P. split; [reflexivity|]. split; auto. split.
    + apply Rdiv_lt_0_compat; auto. unfold v_band_irradiance. apply Rmult_lt_0_compat; [lra|apply exp_pos].
    + rewrite v_photons_scale, <- rft_photons. apply div_back. lra.
Qed.
(* Refuted: for every star. One magnitude brighter in BT than in VT (a measurement error the catalogue contains) gives a negative temperature and a negative solid angle; and a star with
   only a BT magnitude is given V = BT, although a star with that BT and the white colour assumed for it (B-V = 0.3) is 0.38 magnitudes brighter in V *)
Theorem C142_refuted : (forall v, exists m t w, process_magnitude (Some (v - 1)) (Some v) = Some (m, t, w) /\ t < 0 /\ w < 0) /\
  (forall b, exists t w v w', process_magnitude (Some b) None = Some (b, t, w) /\ 85 / 100 * (b - v) = 3 / 10 /\ process_magnitude (Some b) (Some v) = Some (b - 109 / 100 * (30 / 85), t, w')).
Proof.
  split.
  - intros v. eexists _, _, _. split; [reflexivity|]. assert (T : color_temperature (85 / 100 * (v - 1 - v)) < 0).
    { replace (85 / 100 * (v - 1 - v)) with (- (85 / 100)) by ring. unfold color_temperature.
      replace (92 / 100 * - (85 / 100) + 17 / 10) with (918 / 1000) by lra. replace (92 / 100 * - (85 / 100) + 62 / 100) with (- (162 / 1000)) by lra.
      replace (1 / (918 / 1000)) with (1000 / 918) by field. replace (1 / - (162 / 1000)) with (- (1000 / 162)) by field. lra. }
    split; auto. pose proof (rft_neg _ T). unfold Rdiv. assert (0 < v_band_irradiance (v - 9 / 100 * (v - 1 - v))) by (unfold v_band_irradiance; apply Rmult_lt_0_compat; [lra|apply exp_pos]).
    assert (/ radiance_from_temp (color_temperature (85 / 100 * (v - 1 - v))) < 0) by (apply Rinv_lt_0_compat; auto). unfold Rdiv in *. nra.
  - intros b. eexists _, _, (b - 30 / 85), _. split; [reflexivity|]. split; [lra|]. unfold process_magnitude, magnitude_color. cbv zeta.
    replace (85 / 100 * (b - (b - 30 / 85))) with (3 / 10) by lra. replace (b - 30 / 85 - 9 / 100 * (b - (b - 30 / 85))) with (b - 109 / 100 * (30 / 85)) by lra. reflexivity.
Qed.
(* the temperatures are those of stars: with the colour B-V = 0.65 of the Sun 5750 to 5850 K, with Vega's colour 0 between 10000 and 10250 K, and every star between B-V = 0 and 1.6 is between 3000 and 10250 K *)
Theorem C142_temperature : forall b v m t w, process_magnitude (Some b) (Some v) = Some (m, t, w) ->
  m = v - 9 / 100 * (b - v) /\ (85 / 100 * (b - v) = 65 / 100 -> 5750 < t < 5850) /\ (b = v -> 10000 < t < 10250) /\ (0 <= 85 / 100 * (b - v) <= 16 / 10 -> 3000 < t < 10250).
Proof.
  intros b v m t w H. cbn [process_magnitude magnitude_color] in H. injection H as <- <- _. split; [reflexivity|]. unfold color_temperature.
  assert (K : forall x, 0 <= x <= 16 / 10 -> 4600 * (1 / (92 / 100 * x + 17 / 10) + 1 / (92 / 100 * x + 62 / 100)) = 4600 * (2 * (92 / 100 * x) + 232 / 100) / ((92 / 100 * x + 17 / 10) * (92 / 100 * x + 62 / 100))) by (intros; field; lra).
  assert (G : forall x, 0 <= x <= 16 / 10 -> 3000 < 4600 * (1 / (92 / 100 * x + 17 / 10) + 1 / (92 / 100 * x + 62 / 100)) < 10250).
  { intros x B. rewrite (K x B). assert (P : 0 < (92 / 100 * x + 17 / 10) * (92 / 100 * x + 62 / 100)) by nra.
    split; (apply Rmult_lt_reg_r with (1 := P); unfold Rdiv; rewrite ?Rmult_assoc, ?Rinv_l by lra; nra). }
  split; [intros ->; lra|]. split; [intros ->; replace (v - v) with 0 by ring; lra|]. intros B. apply G. exact B.
Qed.
Example C142_case : - (62 / 92) < 85 / 100 * (5 - 44 / 10). Proof. lra. Qed.
Print Assumptions C142_calibrated.
Print Assumptions C142_five_magnitudes.
Print Assumptions C142_bluer_is_hotter.
Print Assumptions C142_refuted.

(** C143 *)
Lemma sin_abs_le x : Rabs (sin x) <= Rabs x.
Proof.
  assert (P : forall y, 0 <= y -> Rabs (sin y) <= y).
  { intros y Hy. destruct (Rle_lt_dec y 1).
    - destruct Hy as [Hy|<-]; [|rewrite sin_0, Rabs_R0; lra]. pose proof (sin_lt_x y Hy). pose proof PI2_1. assert (0 <= sin y) by (apply sin_ge_0; lra). rewrite Rabs_right; lra.
    - pose proof (SIN_bound y). apply Rabs_le. lra. }
  destruct (Rle_lt_dec 0 x) as [H|H].
  - rewrite (Rabs_right x) by lra. auto.
  - rewrite (Rabs_left x) by lra. rewrite <- (Ropp_involutive x) at 1. rewrite sin_neg, Rabs_Ropp. apply P. lra.
Qed.
Lemma cos_lipschitz a b : Rabs (cos a - cos b) <= Rabs (a - b).
Proof.
  rewrite form2. rewrite !Rabs_mult. pose proof (sin_abs_le ((a - b) / 2)) as H1. pose proof (SIN_bound ((a + b) / 2)) as H2. assert (Rabs (sin ((a + b) / 2)) <= 1) by (apply Rabs_le; lra).
  replace (Rabs (-2)) with 2 by (rewrite Rabs_left; lra). assert (Rabs ((a - b) / 2) = Rabs (a - b) / 2) by (unfold Rdiv; rewrite Rabs_mult, (Rabs_right (/ 2)); lra).
  pose proof (Rabs_pos (sin ((a - b) / 2))). pose proof (Rabs_pos (sin ((a + b) / 2))). nra.
Qed.
(* where a star of the catalogue (position ra, dec at year e, proper motions in milliarcseconds a year) is put in year e, and by how much its right ascension is off *)
Definition moved_dec (dec pm_dec e : R) : R := dec + pm_dec * mas * (2000 - e).
Definition ra_error (dec pm_ra pm_dec e : R) : R := pm_ra * mas * (2000 - e) * (1 / cos (moved_dec dec pm_dec e) - 1 / cos dec).
Lemma loaded_at ra dec pr pd er ed years : cos dec <> 0 -> cos (moved_dec dec pd ed) <> 0 ->
  loaded_direction ra dec pr pd er ed years = star_direction (ra + pr * mas * (2000 - er) / cos (moved_dec dec pd ed)) (moved_dec dec pd ed) pr pd years.
Proof.
  intros C C'. assert (M : MAS_TO_RAD = mas) by (unfold MAS_TO_RAD, mas; field). unfold loaded_direction, normalize_epoch. rewrite M. fold (moved_dec dec pd ed).
  destruct (Req_EM_T er 2000) as [->|]; [|reflexivity]. destruct (Req_EM_T ed 2000) as [->|]; [|reflexivity]. unfold moved_dec in *. replace (2000 - 2000) with 0 in * by ring.
  f_equal; [field; exact C'|ring].
Qed.
Lemma loaded_back ra dec pr pd e : cos dec <> 0 -> cos (moved_dec dec pd e) <> 0 -> loaded_direction ra dec pr pd e e (e - 2000) = sky (ra + ra_error dec pr pd e) dec.
Proof.
  intros C C'. assert (M : MAS_TO_RAD = mas) by (unfold MAS_TO_RAD, mas; field). rewrite loaded_at by auto. rewrite star_sky, M.
  replace (moved_dec dec pd e + pd * mas * (e - 2000)) with dec by (unfold moved_dec; ring). f_equal. unfold ra_error. field. auto.
Qed.
(* A star loaded from a catalogue and looked at in the catalogue's year has the catalogue's declination; right ascension and direction too when it moves along a parallel or a meridian only, or
   when the year is 2000; in general its right ascension is off, on the sky by no more than the product of its two motions (of the order of 1e-12 radians for the fastest stars away from the poles) *)
Theorem C143 : forall ra dec pr pd, cos dec <> 0 ->
  (forall er ed, cos (moved_dec dec pd ed) <> 0 -> vz (loaded_direction ra dec pr pd er ed (ed - 2000)) = sin dec) /\
  (forall e, cos (moved_dec dec pd e) <> 0 -> pr = 0 \/ pd = 0 \/ e = 2000 -> loaded_direction ra dec pr pd e e (e - 2000) = sky ra dec) /\
  (forall e, cos (moved_dec dec pd e) <> 0 -> exists a, loaded_direction ra dec pr pd e e (e - 2000) = sky a dec /\
     Rabs ((a - ra) * cos dec) <= Rabs (pr * mas * (2000 - e)) * Rabs (pd * mas * (2000 - e)) / Rabs (cos (moved_dec dec pd e))) /\
  (forall years, loaded_direction ra dec pr pd 2000 2000 years = star_direction ra dec pr pd years).
Proof.
  intros ra dec pr pd C. assert (M : MAS_TO_RAD = mas) by (unfold MAS_TO_RAD, mas; field). split; [|split; [|split]].
  - intros er ed C'. rewrite loaded_at by auto. rewrite star_sky, M. cbn [vz sky]. f_equal. unfold moved_dec. ring.
  - intros e C' H. rewrite loaded_back by auto. replace (ra_error dec pr pd e) with 0; [f_equal; ring|]. unfold ra_error. destruct H as [->|[->| ->]].
    + ring.
    + unfold moved_dec. rewrite !Rmult_0_l, Rplus_0_r. ring.
    + replace (2000 - 2000) with 0 by ring. ring.
  - intros e C'. eexists. split; [apply loaded_back; auto|]. replace (ra + ra_error dec pr pd e - ra) with (ra_error dec pr pd e) by ring. unfold ra_error.
    set (d' := moved_dec dec pd e) in *. set (m := pr * mas * (2000 - e)).
    replace (m * (1 / cos d' - 1 / cos dec) * cos dec) with (m * (cos dec - cos d') / cos d') by (field; auto).
    unfold Rdiv. rewrite !Rabs_mult, Rabs_inv. apply Rmult_le_compat_r; [left; apply Rinv_0_lt_compat, Rabs_pos_lt; auto|]. apply Rmult_le_compat_l; [apply Rabs_pos|].
    eapply Rle_trans; [apply cos_lipschitz|]. right. rewrite <- !Rabs_mult, Rabs_minus_sym. f_equal. unfold d', moved_dec. ring.
  - intros years. unfold loaded_direction, normalize_epoch. destruct (Req_EM_T 2000 2000); [|lra]. reflexivity.
Qed.
Lemma sky_same a b d : cos d <> 0 -> sky a d = sky b d -> Rabs (a - b) < 2 * PI -> a = b.
Proof.
  intros C E B. pose proof (f_equal vx E) as X. pose proof (f_equal vy E) as Y. cbn [vx vy sky] in X, Y. apply Rmult_eq_reg_l in X; auto. apply Rmult_eq_reg_l in Y; auto.
  assert (D : cos (a - b) = 1) by (rewrite cos_minus, X, Y; pose proof (sin2_cos2 b) as S; unfold Rsqr in S; lra).
  assert (H : forall x, 0 < x < 2 * PI -> cos x <> 1).
  { intros x Hx Q. replace x with (2 * (x / 2)) in Q by field. rewrite cos_2a_sin in Q. assert (0 < sin (x / 2)) by (apply sin_gt_0; lra). nra. }
  destruct (Rtotal_order a b) as [L|[L|L]]; auto; exfalso.
  - apply (H (b - a)); [rewrite Rabs_left in B by lra; lra|]. rewrite <- D. replace (a - b) with (- (b - a)) by ring. symmetry. apply cos_neg.
  - apply (H (a - b)); [rewrite Rabs_right in B by lra; lra|]. exact D.
Qed.
(* Refuted: that the catalogue's position comes back exactly. It never does for a star that moves both ways and whose declination changes the width of its parallel, short of an error of a
   whole turn *)
Theorem C143_refuted : forall ra dec pr pd e, cos dec <> 0 -> cos (moved_dec dec pd e) <> 0 -> pr <> 0 -> e <> 2000 -> cos (moved_dec dec pd e) <> cos dec ->
  Rabs (ra_error dec pr pd e) < 2 * PI -> loaded_direction ra dec pr pd e e (e - 2000) <> sky ra dec.
Proof.
  intros ra dec pr pd e C C' P E N B H. rewrite loaded_back in H by auto. apply sky_same in H; auto; [|replace (ra + ra_error dec pr pd e - ra) with (ra_error dec pr pd e) by ring; auto].
  assert (Z : ra_error dec pr pd e = 0) by lra. unfold ra_error in Z. apply Rmult_integral in Z as [Z|Z].
  - assert (0 < mas) by (unfold mas; pose proof PI_RGT_0; lra). apply Rmult_integral in Z as [Z|Z]; [apply Rmult_integral in Z as [Z|Z]|]; lra.
  - apply N. assert (1 / cos (moved_dec dec pd e) = 1 / cos dec) by lra. unfold Rdiv in H0. rewrite !Rmult_1_l in H0. rewrite <- (Rinv_inv (cos (moved_dec dec pd e))), H0. apply Rinv_inv.
Qed.
(* Barnard's star as observed in 1991.25 is such a star *)
Example C143_case : exists dec pr pd e, cos dec <> 0 /\ cos (moved_dec dec pd e) <> 0 /\ pr <> 0 /\ e <> 2000 /\ cos (moved_dec dec pd e) <> cos dec /\ Rabs (ra_error dec pr pd e) < 2 * PI.
Proof.
  exists (1 / 10), (-800), 10300, (199125 / 100).
  pose proof PI_RGT_0 as P0. pose proof PI_4 as P4. pose proof PI2_1 as P2.
  set (d := moved_dec (1 / 10) 10300 (199125 / 100)). assert (D : 1 / 10 < d < 2 / 10) by (unfold d, moved_dec, mas; nra).
  assert (B : forall x, 0 < x < 2 / 10 -> 1 / 2 <= cos x <= 1). { intros x Hx. split; [|apply COS_bound]. rewrite <- cos_PI3. left. apply cos_decreasing_1; lra. }
  pose proof (B d ltac:(lra)). pose proof (B (1 / 10) ltac:(lra)).
  split; [lra|]. split; [lra|]. split; [lra|]. split; [lra|]. split; [|].
  - assert (cos d < cos (1 / 10)) by (apply cos_decreasing_1; lra). lra.
  - unfold ra_error. fold d. assert (A : forall c, 1 / 2 <= c <= 1 -> 1 <= 1 / c <= 2). { intros c Hc. split; [apply (Rmult_le_reg_r c); [lra|]|apply (Rmult_le_reg_r c); [lra|]]; replace (1 / c * c) with 1 by (field; lra); lra. }
    pose proof (A _ H). pose proof (A _ H0). set (u := 1 / cos d) in *. set (v := 1 / cos (1 / 10)) in *. clearbody u v. rewrite Rabs_mult. assert (Rabs (u - v) <= 1) by (apply Rabs_le; lra).
    assert (Rabs (-800 * mas * (2000 - 199125 / 100)) <= 1) by (unfold mas; apply Rabs_le; nra). pose proof (Rabs_pos (u - v)). pose proof (Rabs_pos (-800 * mas * (2000 - 199125 / 100))). nra.
Qed.
Print Assumptions C143.
Print Assumptions C143_refuted.
