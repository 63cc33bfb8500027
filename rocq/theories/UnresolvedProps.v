(* C60, C84, C86: asteroids, Lambertian spheres, magnitudes to irradiance. *)
From Coq Require Import Reals List Lra Lia Psatz.
From Verif Require Import Common Vec3 SpectralModel SpectralSpec SpectralProofs2 LightModel LightSpec LightProofs LightProps PhysicsProps.
From Coquelicot Require Import Coquelicot.
Import ListNotations.
Open Scope R_scope.

(** C86 *)
Definition positive_layout (bins : list bin) : Prop := exists n args, (0 < n)%nat /\ init_bins n args = Ok bins /\ forall b, In b bins -> 0 < b_min b.
Lemma nth_zip f a b i : (i < List.length a)%nat -> List.length b = List.length a -> nth i (zip f a b) 0 = f (nth i a 0) (nth i b 0).
Proof.
  intros Hi HL. unfold zip. rewrite (nth_map_any _ 0 (0, 0)) by (rewrite combine_length, HL, Nat.min_id; auto). rewrite combine_nth by auto. reflexivity.
Qed.
Lemma zip_length f (a b : list R) : List.length b = List.length a -> List.length (zip f a b) = List.length a.
Proof. intros H. unfold zip. rewrite map_length, combine_length, H, Nat.min_id. reflexivity. Qed.
Lemma grid_trap_pos f lo hi n : lo < hi -> (2 <= n)%nat -> (forall x, lo <= x -> 0 < f x) -> 0 < trapezoid (sample_grid lo hi n) (map f (sample_grid lo hi n)).
Proof.
  intros Hb Hn Hf. change (sample_grid lo hi n) with (lin_real lo hi n). unfold trapezoid. rewrite lin_real_length. apply fold_pos; [|lia].
  intros i Hi. pose proof (lin_step_pos _ _ n Hb Hn) as HS.
  rewrite !(nth_map_any f 0 0) by (rewrite lin_real_length; lia). rewrite !lin_real_nth by lia.
  rewrite plus_INR. cbn [INR]. assert (0 <= INR i) by apply pos_INR.
  assert (0 < f (lo + INR i * ((hi - lo) / INR (n - 1)))) by (apply Hf; nra).
  assert (0 < f (lo + (INR i + 1) * ((hi - lo) / INR (n - 1)))) by (apply Hf; nra).
  apply Rmult_lt_0_compat; nra.
Qed.
Lemma vband_pos : 0 < solar_vband_weighted.
Proof.
  pose proof nano_pos. unfold solar_vband_weighted. apply grid_trap_pos; [lra|lia|]. intros x Hx. apply Rmult_lt_0_compat; [apply planck_pos; lra|apply exp_pos].
Qed.
Lemma fold_min_le t m : fold_left (fun m x => if Rltb (b_min x) m then b_min x else m) t m <= m /\ (fold_left (fun m x => if Rltb (b_min x) m then b_min x else m) t m = m \/ exists b, In b t /\ fold_left (fun m x => if Rltb (b_min x) m then b_min x else m) t m = b_min b).
Proof.
  revert m. induction t as [|a t IH]; intros m; cbn [fold_left]; [split; [lra|auto]|].
  destruct (IH (if Rltb (b_min a) m then b_min a else m)) as (H1 & H2). destruct (Rltb (b_min a) m) eqn:E; rb; (split; [lra|]);
  destruct H2 as [->|(b & Hb & ->)]; [right; exists a; cbn; auto|right; exists b; cbn; auto|auto|right; exists b; cbn; auto].
Qed.
Lemma fold_max_ge t m : m <= fold_left (fun m x => if Rltb m (b_max x) then b_max x else m) t m.
Proof. revert m. induction t as [|a t IH]; intros m; cbn [fold_left]; [lra|]. eapply Rle_trans; [|apply IH]. destruct (Rltb m (b_max a)) eqn:E; rb; lra. Qed.
Lemma full_pos bins : positive_layout bins -> 0 < solar_full_integral bins.
Proof.
  intros (n & args & Hn & HB & HP). destruct (init_bins_ok n args bins HB) as (HL & HW & _). destruct bins as [|b t]; [cbn in HL; lia|].
  assert (Hb: b_min b < b_max b) by (apply HW; cbn; auto). assert (0 < b_min b) by (apply HP; cbn; auto).
  unfold solar_full_integral. destruct (fold_min_le t (b_min b)) as (M1 & M2). pose proof (fold_max_ge t (b_max b)) as M3.
  assert (ML: 0 < layout_min (b :: t)). { unfold layout_min. destruct M2 as [->|(x & Hx & ->)]; [auto|apply HP; cbn; auto]. }
  apply grid_trap_pos; [unfold layout_min, layout_max; lra|lia|]. intros x Hx. apply planck_pos; lra.
Qed.
Lemma bb_nth bins i steps t : positive_layout bins -> 0 < t -> (2 <= steps)%nat -> (i < List.length bins)%nat -> 0 < nth i (black_body bins t steps) 0.
Proof.
  intros (n & args & Hn & HB & HP) Ht Hs Hi. destruct (init_bins_ok n args bins HB) as (HL & HW & _). unfold black_body. rewrite (nth_map_any _ 0 (Bin 0 0)) by auto.
  assert (HI: In (nth i bins (Bin 0 0)) bins) by (apply nth_In; auto). destruct (black_body_positive t (nth i bins (Bin 0 0)) steps Ht (HP _ HI) (HW _ HI) Hs) as (r & -> & Hr). exact Hr.
Qed.
Lemma bb_total bins t steps : positive_layout bins -> 0 < t -> (2 <= steps)%nat -> 0 < total (black_body bins t steps).
Proof.
  intros HL Ht Hs. unfold total. rewrite sum_rsum. assert (HB := HL). destruct HB as (n & args & Hn & HB & _). destruct (init_bins_ok n args bins HB) as (HLn & _).
  apply rsum_pos; [destruct bins; cbn in *; [lia|discriminate]|]. intros x Hx. apply (In_nth _ _ 0) in Hx. destruct Hx as (i & Hi & <-). unfold black_body in Hi. rewrite map_length in Hi. apply bb_nth; auto.
Qed.
Lemma bb_length bins t n : List.length (black_body bins t n) = List.length bins.
Proof. unfold black_body. apply map_length. Qed.
Local Opaque solar_full_integral solar_vband_weighted black_body.
Definition photons_of (bins : list bin) (m : R) : R := v_band_irradiance m * solar_full_integral bins / solar_vband_weighted.
Lemma vm_nth bins m albedo i : List.length albedo = List.length bins -> (i < List.length bins)%nat ->
  nth i (visual_magnitude_to_irradiance bins m albedo) 0 =
  nth i (black_body bins 5778 100) 0 * (photons_of bins m / total (black_body bins 5778 100)) * nth i albedo 0 * photon_energy (b_center (nth i bins (Bin 0 0))).
Proof.
  intros HA Hi. unfold visual_magnitude_to_irradiance. cbv zeta. fold (photons_of bins m). unfold photon_energies.
  assert (LB: List.length (black_body bins 5778 100) = List.length bins) by apply bb_length.
  assert (LE: List.length (each (fun x => x * (photons_of bins m / total (black_body bins 5778 100))) (black_body bins 5778 100)) = List.length bins) by (unfold each; rewrite map_length; auto).
  rewrite nth_zip; [|rewrite zip_length; lia|rewrite zip_length, map_length; lia]. rewrite nth_zip; [|lia|lia].
  rewrite (nth_map_any (fun b => photon_energy (b_center b)) 0 (Bin 0 0)) by auto. unfold each. rewrite (nth_map_any _ 0 0) by lia. reflexivity.
Qed.
Lemma nth_repeat_in (x d : R) n k : (k < n)%nat -> nth k (repeat x n) d = x.
Proof. revert k. induction n as [|n IH]; intros [|k] H; try lia; cbn; auto. apply IH. lia. Qed.
Lemma vm_length bins m albedo : List.length albedo = List.length bins -> List.length (visual_magnitude_to_irradiance bins m albedo) = List.length bins.
Proof.
  intros HA. unfold visual_magnitude_to_irradiance. cbv zeta. assert (LB: List.length (black_body bins 5778 100) = List.length bins) by apply bb_length.
  rewrite zip_length; rewrite zip_length; unfold each; rewrite ?map_length; try lia. unfold photon_energies. rewrite map_length. lia.
Qed.

(* five magnitudes are a factor of 100, every bin is proportional to its albedo and positive, the number of photons per second and square metre is that of
   the magnitude scaled from the V band to the range of the layout *)
Theorem C86_magnitude_irradiance : forall bins m albedo i, positive_layout bins -> List.length albedo = List.length bins -> (i < List.length bins)%nat ->
  nth i (visual_magnitude_to_irradiance bins (m + 5) albedo) 0 = nth i (visual_magnitude_to_irradiance bins m albedo) 0 / 100 /\
  nth i (visual_magnitude_to_irradiance bins m albedo) 0 = nth i albedo 0 * nth i (visual_magnitude_to_irradiance bins m (repeat 1 (List.length bins))) 0 /\
  0 < nth i (visual_magnitude_to_irradiance bins m (repeat 1 (List.length bins))) 0 /\
  rsum (map (fun k => nth k (visual_magnitude_to_irradiance bins m (repeat 1 (List.length bins))) 0 / photon_energy (b_center (nth k bins (Bin 0 0)))) (seq 0 (List.length bins))) =
    v_band_irradiance m * solar_full_integral bins / solar_vband_weighted.
Proof.
  intros bins m albedo i HL HA Hi. assert (H1: List.length (repeat 1 (List.length bins)) = List.length bins) by apply repeat_length.
  assert (N1: forall k, (k < List.length bins)%nat -> nth k (repeat 1 (List.length bins)) 0 = 1) by (intros; apply nth_repeat_in; auto).
  destruct (C83_magnitudes m) as (MG & VP & _). pose proof vband_pos as VB. pose proof (full_pos bins HL) as FP. pose proof (bb_total bins 5778 100 HL ltac:(lra) ltac:(lia)) as BT.
  assert (PP: 0 < photons_of bins m) by (unfold photons_of; apply Rdiv_lt_0_compat; auto; apply Rmult_lt_0_compat; auto).
  assert (PE: forall k, (k < List.length bins)%nat -> 0 < photon_energy (b_center (nth k bins (Bin 0 0)))).
  { intros k Hk. destruct HL as (n & args & Hn & HB & HP). destruct (init_bins_ok n args bins HB) as (_ & HW & _).
    assert (HI: In (nth k bins (Bin 0 0)) bins) by (apply nth_In; auto). pose proof (HP _ HI). pose proof (HW _ HI). destruct consts_pos as (C1 & C2 & _).
    unfold photon_energy, b_center. apply Rdiv_lt_0_compat; [apply Rmult_lt_0_compat; auto|lra]. }
  split; [|split; [|split]].
  - rewrite !vm_nth by auto. unfold photons_of. rewrite MG. generalize dependent (solar_full_integral bins). generalize dependent solar_vband_weighted. generalize dependent (total (black_body bins 5778 100)). generalize (nth i (black_body bins 5778 100) 0). intros. field. split; lra.
  - rewrite !vm_nth by auto. rewrite N1 by auto. generalize (photon_energy (b_center (nth i bins (Bin 0 0)))) (nth i (black_body bins 5778 100) 0) (photons_of bins m / total (black_body bins 5778 100)). intros. ring.
  - rewrite vm_nth by auto. rewrite N1 by auto. pose proof (bb_nth bins i 100 5778 HL ltac:(lra) ltac:(lia) Hi) as BN. pose proof (PE i Hi).
    apply Rmult_lt_0_compat; auto. rewrite Rmult_1_r. apply Rmult_lt_0_compat; auto. apply Rdiv_lt_0_compat; auto.
  - fold (photons_of bins m).
    rewrite (map_ext_in _ (fun k => (photons_of bins m / total (black_body bins 5778 100)) * nth k (black_body bins 5778 100) 0)).
    + rewrite <- (map_map (fun k => nth k (black_body bins 5778 100) 0) (Rmult (photons_of bins m / total (black_body bins 5778 100)))). rewrite rsum_scale.
      assert (ES: map (fun k => nth k (black_body bins 5778 100) 0) (seq 0 (List.length bins)) = black_body bins 5778 100).
      { apply nth_ext with (d := 0) (d' := 0); [rewrite map_length, seq_length; rewrite bb_length; auto|].
        intros k Hk. rewrite map_length, seq_length in Hk. rewrite nth_map_seq by auto. reflexivity. }
      rewrite ES. unfold total in *. rewrite sum_rsum in *. generalize dependent (photons_of bins m). generalize dependent (rsum (black_body bins 5778 100)). intros. field. lra.
    + intros k Hk. apply in_seq in Hk. rewrite vm_nth, N1 by (auto; lia). pose proof (PE k ltac:(lia)) as PK. generalize dependent (photon_energy (b_center (nth k bins (Bin 0 0)))). generalize (nth k (black_body bins 5778 100) 0). clear PE. generalize dependent (photons_of bins m). generalize dependent (total (black_body bins 5778 100)). intros. field. split; lra.
Qed.
Print Assumptions C86_magnitude_irradiance.
(* the visual band is a Gaussian of mean 551 nm and standard deviation 38 nm: k standard deviations off the mean the response is e^(-k^2/2) *)
Theorem C86_visual_band : forall k, vband_response ((551 + k * 38) * / 1000000000) = exp (- (k * k) / 2).
Proof. intros k. unfold vband_response, nano. cbv zeta. f_equal. field. Qed.
Print Assumptions C86_visual_band.
(* refuted: the irradiance does not follow the solar spectrum. The shares of energy of the bins are used as shares of photons, so that of two bins the one
   with the shorter wavelength always gets too large a share of the energy *)
Theorem C86_refuted_solar_shape : forall bins m i j, positive_layout bins -> (i < List.length bins)%nat -> (j < List.length bins)%nat ->
  b_center (nth i bins (Bin 0 0)) < b_center (nth j bins (Bin 0 0)) ->
  let e := visual_magnitude_to_irradiance bins m (repeat 1 (List.length bins)) in let solar := black_body bins 5778 100 in
  nth i e 0 / nth j e 0 = (nth i solar 0 / nth j solar 0) * (b_center (nth j bins (Bin 0 0)) / b_center (nth i bins (Bin 0 0))) /\
  nth i solar 0 / nth j solar 0 < nth i e 0 / nth j e 0.
Proof.
  intros bins m i j HL Hi Hj Hc e solar. subst e solar. assert (H1: List.length (repeat 1 (List.length bins)) = List.length bins) by apply repeat_length.
  rewrite !vm_nth by auto. rewrite !nth_repeat_in by auto.
  destruct (C83_magnitudes m) as (_ & VP & _). pose proof vband_pos as VB. pose proof (full_pos bins HL) as FP. pose proof (bb_total bins 5778 100 HL ltac:(lra) ltac:(lia)) as BT.
  assert (PP: 0 < photons_of bins m) by (unfold photons_of; apply Rdiv_lt_0_compat; auto; apply Rmult_lt_0_compat; auto).
  pose proof (bb_nth bins i 100 5778 HL ltac:(lra) ltac:(lia) Hi) as BI. pose proof (bb_nth bins j 100 5778 HL ltac:(lra) ltac:(lia) Hj) as BJ.
  assert (CP: 0 < b_center (nth i bins (Bin 0 0))).
  { destruct HL as (n & args & Hn & HB & HP). destruct (init_bins_ok n args bins HB) as (_ & HW & _).
    assert (HI: In (nth i bins (Bin 0 0)) bins) by (apply nth_In; auto). pose proof (HP _ HI). pose proof (HW _ HI). unfold b_center. lra. }
  destruct consts_pos as (C1 & C2 & _). unfold photon_energy. set (ci := b_center (nth i bins (Bin 0 0))) in *. set (cj := b_center (nth j bins (Bin 0 0))) in *.
  set (bi := nth i (black_body bins 5778 100) 0) in *. set (bj := nth j (black_body bins 5778 100) 0) in *.
  assert (E: bi * (photons_of bins m / total (black_body bins 5778 100)) * 1 * (H_PLANCK * SPEED_OF_LIGHT / ci) / (bj * (photons_of bins m / total (black_body bins 5778 100)) * 1 * (H_PLANCK * SPEED_OF_LIGHT / cj)) = bi / bj * (cj / ci)).
  { clear - BI BJ CP Hc PP BT C1 C2. clearbody bi bj ci cj. generalize dependent (photons_of bins m). generalize dependent (total (black_body bins 5778 100)). generalize dependent H_PLANCK. generalize dependent SPEED_OF_LIGHT. intros. field. repeat split; lra. }
  rewrite E. split; [reflexivity|]. assert (0 < bi / bj) by (apply Rdiv_lt_0_compat; auto).
  assert (1 < cj / ci). { apply (Rmult_lt_reg_r ci); auto. unfold Rdiv. rewrite Rmult_assoc, Rinv_l by lra. lra. } nra.
Qed.
Print Assumptions C86_refuted_solar_shape.
Example C86_case : positive_layout (init_uniform 8 380 750) /\ b_center (nth 0 (init_uniform 8 380 750) (Bin 0 0)) < b_center (nth 7 (init_uniform 8 380 750) (Bin 0 0)).
Proof.
  pose proof nano_pos as HN. split.
  - exists 8%nat, [380; 750]. split; [lia|]. split.
    + change (init_bins 8 [380; 750]) with (check_bins (init_uniform 8 380 750)). apply uniform_ok; [lia|lra].
    + intros b Hb. apply (In_nth _ _ (Bin 0 0)) in Hb. destruct Hb as (i & Hi & <-). unfold init_uniform in Hi. rewrite map_length, seq_length in Hi. rewrite uniform_nth by auto. cbn [b_min].
      assert (0 <= INR i) by apply pos_INR. cbn [INR]. nra.
  - rewrite !uniform_nth by lia. unfold b_center. cbn [b_min b_max INR Nat.add]. nra.
Qed.

(** C60 *)
Lemma ln10_pos : 0 < ln 10.
Proof. rewrite <- ln_1. apply ln_increasing; lra. Qed.
Lemma AU_pos : 0 < AU. Proof. unfold AU. lra. Qed.
Definition phase_angle (position light : vec3) (alpha : R) : Prop :=
  0 <= alpha < PI /\ dot (vsub light position) (vsub vzero position) = dist light position * dist vzero position * cos alpha.
Lemma vlen_neg p : vlen (vscale (-1) p) = dist vzero p.
Proof. rewrite dist_dot. unfold vlen. f_equal. unfold dot, vscale, vsub; cbn. ring. Qed.
Lemma dist_zero a b : dist a b <= 0 <-> a = b.
Proof.
  rewrite dist_dot. split.
  - intros H. pose proof (dot_self_nonneg (vsub a b)) as D. pose proof (sqrt_sqrt _ D) as Q. pose proof (sqrt_pos (dot (vsub a b) (vsub a b))).
    assert (Z: dot (vsub a b) (vsub a b) = 0) by nra. unfold dot, vsub in Z; cbn in Z.
    assert (SQ: forall x y z, x * x + y * y + z * z = 0 -> x = 0 /\ y = 0 /\ z = 0) by (clear; intros; nra).
    apply SQ in Z. destruct Z as (Z1 & Z2 & Z3). apply v3_eq; lra.
  - intros ->. assert (E: dot (vsub b b) (vsub b b) = 0) by (unfold dot, vsub; cbn; ring). rewrite E, sqrt_0. lra.
Qed.
Lemma tan_half_pos a : 0 < a < PI -> 0 < tan (a / 2).
Proof. intros H. apply tan_gt_0; lra. Qed.
Lemma phi_spec A B a : 0 <= a < PI -> exp (- A * cpow (tan (a / 2)) B) = hg_phi A B a.
Proof.
  intros H. unfold cpow, hg_phi. destruct (Req_EM_T a 0) as [->|HA].
  - replace (0 / 2) with 0 by field. rewrite tan_0. destruct (Req_EM_T 0 0); [|lra]. rewrite Rmult_0_r. apply exp_0.
  - pose proof (tan_half_pos a ltac:(lra)). destruct (Req_EM_T _ 0); [lra|reflexivity].
Qed.
Lemma mag_unfold H G p lp : asteroid_magnitude H G p (Some lp) = if Rleb (dist lp p) 0 || Rleb (dist vzero p) 0 then Throws else
  let alpha := acos (Rmax (-1) (Rmin 1 (dot (vscale (/ dist lp p) (vsub lp p)) (vscale (/ dist vzero p) (vscale (-1) p))))) in
  Ok (H - 25 / 10 * log10 ((1 - G) * asteroid_phi1 alpha + G * asteroid_phi2 alpha) + 5 * log10 (dist lp p * AU * (dist vzero p * AU))).
Proof. unfold asteroid_magnitude. cbv zeta. rewrite vlen_neg. change (vlen (vsub lp p)) with (sqrt (dot (vsub lp p) (vsub lp p))). rewrite <- dist_dot. reflexivity. Qed.
(* the code throws exactly if the light is missing or coincides with the asteroid, or the asteroid with the observer *)
Theorem C60_throws : forall H G position light, asteroid_magnitude H G position light = Throws <->
  light = None \/ position = vzero \/ light = Some position.
Proof.
  intros H G position [lp|]; [|cbn; split; auto]. rewrite mag_unfold.
  destruct (Rleb (dist lp position) 0) eqn:E1; rb; cbn [orb].
  - apply dist_zero in E1. subst. split; auto.
  - destruct (Rleb (dist vzero position) 0) eqn:E2; rb.
    + apply dist_zero in E2. subst. split; auto.
    + cbv zeta. split; [discriminate|]. intros [X|[X|X]]; [discriminate| |].
      * subst. pose proof (proj2 (dist_zero vzero vzero) eq_refl). lra.
      * inversion X; subst. pose proof (proj2 (dist_zero position position) eq_refl). lra.
Qed.
Print Assumptions C60_throws.
Lemma ln_prod a b : 0 < a -> 0 < b -> ln (a * b) = ln a + ln b.
Proof. intros. apply ln_mult; auto. Qed.
(* what is computed: the HG magnitude plus 20 log10 of the astronomical unit in metres, because distances are multiplied by it instead of divided *)
Theorem C60_offset_partial : forall H G position light alpha m, asteroid_magnitude H G position (Some light) = Ok m -> phase_angle position light alpha ->
  m = hg_magnitude H G (hg_phi (333 / 100) (64 / 100) alpha) (hg_phi (187 / 100) (122 / 100) alpha) (dist light position) (dist vzero position) AU + 20 * (ln AU / ln 10).
Proof.
  intros H G p lp alpha m. rewrite mag_unfold. destruct (Rleb _ _) eqn:E1; cbn [orb]; [discriminate|]. destruct (Rleb (dist vzero p) 0) eqn:E2; [discriminate|]. rb.
  cbv zeta. intros HM (HA & HD). pose proof AU_pos as AP. pose proof ln10_pos as LP.
  assert (HC: dot (vscale (/ dist lp p) (vsub lp p)) (vscale (/ dist vzero p) (vscale (-1) p)) = cos alpha).
  { transitivity (dot (vsub lp p) (vsub vzero p) / (dist lp p * dist vzero p)); [|rewrite HD; field; lra]. unfold dot, vscale, vsub; cbn. field. lra. }
  rewrite HC in HM. pose proof (COS_bound alpha). rewrite Rmin_right, Rmax_right in HM by lra. rewrite acos_cos in HM by lra.
  injection HM as <-. unfold hg_magnitude, asteroid_phi1, asteroid_phi2, log10. rewrite !phi_spec by auto.
  set (r := dist lp p) in *. set (dl := dist vzero p) in *. set (X := ln ((1 - G) * _ + _)).
  assert (L1: ln (r * AU * (dl * AU)) = ln r + ln dl + 2 * ln AU) by (rewrite !ln_mult by nra; ring).
  assert (L2: ln (r / AU * (dl / AU)) = ln r + ln dl - 2 * ln AU).
  { assert (0 < / AU) by (apply Rinv_0_lt_compat; lra). unfold Rdiv. rewrite !ln_mult by nra. rewrite !ln_Rinv by lra. ring. }
  rewrite L1, L2. field. lra.
Qed.
Print Assumptions C60_offset_partial.
(* refuted: at 1 AU from both with zero phase, where the magnitude should be H, it is H + 223.5 *)
Theorem C60_refuted_definition : forall H G, exists m, asteroid_magnitude H G (V3 AU 0 0) (Some vzero) = Ok m /\ phase_angle (V3 AU 0 0) vzero 0 /\
  dist vzero (V3 AU 0 0) = AU /\ m = H + 20 * (ln AU / ln 10) /\ H + 220 < m.
Proof.
  intros H G. pose proof AU_pos as AP. pose proof ln10_pos as LP. assert (HD: dist vzero (V3 AU 0 0) = AU).
  { unfold dist; cbn. replace (_ + _) with (AU * AU) by ring. apply sqrt_square. lra. }
  assert (HPh: phase_angle (V3 AU 0 0) vzero 0).
  { split; [pose proof PI_RGT_0; lra|]. rewrite HD, cos_0. unfold dot, vsub; cbn. ring. }
  assert (E: exists m, asteroid_magnitude H G (V3 AU 0 0) (Some vzero) = Ok m).
  { destruct (asteroid_magnitude H G (V3 AU 0 0) (Some vzero)) eqn:E; [eexists; eauto| |].
    - apply C60_throws in E. destruct E as [X|[X|X]]; [discriminate| |]; inversion X; lra.
    - rewrite mag_unfold in E. destruct (_ || _); discriminate. }
  destruct E as (m & E). exists m. split; [exact E|]. split; [auto|]. split; [auto|].
  pose proof (C60_offset_partial H G _ _ 0 m E HPh) as HM. unfold hg_magnitude, hg_phi in HM. rewrite HD in HM. destruct (Req_EM_T 0 0); [|lra].
  replace ((1 - G) * 1 + G * 1) with 1 in HM by ring. replace (AU / AU * (AU / AU)) with 1 in HM by (field; lra). rewrite ln_1 in HM.
  assert (HL: 11 * ln 10 < ln AU). { replace 11 with (INR 11) by (cbn; lra). rewrite <- ln_pow by lra. apply ln_increasing; [apply pow_lt; lra|]. unfold AU. cbn. lra. }
  assert (HQ: 11 < ln AU / ln 10) by (apply (Rmult_lt_reg_r (ln 10)); auto; unfold Rdiv; rewrite Rmult_assoc, Rinv_l by lra; lra).
  assert (HE: m = H + 20 * (ln AU / ln 10)) by (rewrite HM; field; lra). split; [exact HE|]. rewrite HE. lra.
Qed.
Print Assumptions C60_refuted_definition.
Lemma hg_phi_pos A B a : 0 < hg_phi A B a.
Proof. unfold hg_phi. destruct (Req_EM_T a 0); [lra|apply exp_pos]. Qed.
Lemma hg_phi_mono A B a a' : 0 < A -> 0 < B -> 0 <= a -> a <= a' -> a' < PI -> hg_phi A B a' <= hg_phi A B a.
Proof.
  intros HA HB H0 H1 H2. unfold hg_phi. destruct (Req_EM_T a' 0) as [E'|E'], (Req_EM_T a 0) as [E|E]; try lra.
  - rewrite <- exp_0. apply Rlt_le, exp_increasing. assert (0 < Rpower (tan (a' / 2)) B) by apply exp_pos. nra.
  - destruct (Req_dec a a') as [->|N]; [lra|]. apply Rlt_le, exp_increasing.
    assert (T: tan (a / 2) < tan (a' / 2)) by (apply tan_increasing; lra). pose proof (tan_half_pos a ltac:(lra)).
    assert (Rpower (tan (a / 2)) B < Rpower (tan (a' / 2)) B) by (unfold Rpower; apply exp_increasing, Rmult_lt_compat_l; auto; apply ln_increasing; auto). nra.
Qed.
(* farther from opposition is fainter *)
Theorem C60_phase_partial : forall H G p lp p' lp' alpha alpha' m m', 0 <= G <= 1 ->
  asteroid_magnitude H G p (Some lp) = Ok m -> asteroid_magnitude H G p' (Some lp') = Ok m' ->
  dist lp p = dist lp' p' -> dist vzero p = dist vzero p' -> phase_angle p lp alpha -> phase_angle p' lp' alpha' -> alpha <= alpha' -> m <= m'.
Proof.
  intros H G p lp p' lp' a a' m m' HG HM HM' HD1 HD2 HP HP' Ha.
  rewrite (C60_offset_partial _ _ _ _ _ _ HM HP), (C60_offset_partial _ _ _ _ _ _ HM' HP'). rewrite HD1, HD2. unfold hg_magnitude.
  pose proof (hg_phi_mono (333 / 100) (64 / 100) a a' ltac:(lra) ltac:(lra) ltac:(apply HP) Ha ltac:(apply HP')).
  pose proof (hg_phi_mono (187 / 100) (122 / 100) a a' ltac:(lra) ltac:(lra) ltac:(apply HP) Ha ltac:(apply HP')).
  pose proof (hg_phi_pos (333 / 100) (64 / 100) a'). pose proof (hg_phi_pos (187 / 100) (122 / 100) a').
  set (x := hg_phi _ _ a) in *. set (y := hg_phi (187 / 100) _ a) in *. set (x' := hg_phi _ _ a') in *. set (y' := hg_phi (187 / 100) _ a') in *. clearbody x y x' y'.
  assert (0 < (1 - G) * x' + G * y') by nra. assert ((1 - G) * x' + G * y' <= (1 - G) * x + G * y) by nra.
  assert (HL: ln ((1 - G) * x' + G * y') <= ln ((1 - G) * x + G * y)).
  { destruct (Req_dec ((1 - G) * x' + G * y') ((1 - G) * x + G * y)) as [->|]; [lra|]. apply Rlt_le, ln_increasing; lra. }
  assert (HQ: ln ((1 - G) * x' + G * y') / ln 10 <= ln ((1 - G) * x + G * y) / ln 10) by (apply Rmult_le_compat_r; auto; apply Rlt_le, Rinv_0_lt_compat, ln10_pos). lra.
Qed.
Print Assumptions C60_phase_partial.
(* refuted: the irradiance of every asteroid is too small by the eighth power of the astronomical unit in metres (10^89) *)
Theorem C60_refuted_irradiance : forall bins H G albedo position light alpha m, positive_layout bins -> List.length albedo = List.length bins ->
  (forall x, In x albedo -> 0 <= x <= 1) -> asteroid_magnitude H G position (Some light) = Ok m -> phase_angle position light alpha ->
  exists e, asteroid_irradiance bins H G albedo position (Some light) = Ok e /\ List.length e = List.length bins /\
  forall i, (i < List.length bins)%nat -> nth i e 0 * AU ^ 8 =
    nth i (visual_magnitude_to_irradiance bins (hg_magnitude H G (hg_phi (333 / 100) (64 / 100) alpha) (hg_phi (187 / 100) (122 / 100) alpha) (dist light position) (dist vzero position) AU) albedo) 0.
Proof.
  intros bins H G albedo p lp alpha m HL HA HAR HM HP. unfold asteroid_irradiance. rewrite HM. cbv zeta.
  assert (HV: valid (visual_magnitude_to_irradiance bins m albedo) = true).
  { unfold valid. apply forallb_forall. intros x Hx. apply (In_nth _ _ 0) in Hx. destruct Hx as (i & Hi & <-). rewrite vm_length in Hi by auto.
    destruct (C86_magnitude_irradiance bins m albedo i HL HA Hi) as (_ & -> & HPos & _). assert (0 <= nth i albedo 0) by (apply HAR, nth_In; lia).
    apply Bool.negb_true_iff, Rltb_false. apply Rmult_le_pos; lra. }
  rewrite HV. eexists. split; [reflexivity|]. split; [apply vm_length; auto|]. intros i Hi. rewrite !vm_nth by auto.
  rewrite (C60_offset_partial _ _ _ _ _ _ HM HP). set (h := hg_magnitude _ _ _ _ _ _ _). clearbody h.
  assert (HV8: v_band_irradiance (h + 20 * (ln AU / ln 10)) * AU ^ 8 = v_band_irradiance h).
  { unfold v_band_irradiance. replace (- (4 / 10) * (h + 20 * (ln AU / ln 10))) with (- (4 / 10) * h + - (8 * (ln AU / ln 10))) by (field; apply Rgt_not_eq, ln10_pos).
    rewrite Rpower_plus, Rpower_Ropp. assert (E: Rpower 10 (8 * (ln AU / ln 10)) = AU ^ 8).
    { unfold Rpower. replace (8 * (ln AU / ln 10) * ln 10) with (INR 8 * ln AU) by (cbn; field; apply Rgt_not_eq, ln10_pos). pose proof AU_pos. rewrite <- ln_pow by auto. apply exp_ln. apply pow_lt; auto. }
    rewrite E. field. pose proof AU_pos. lra. }
  unfold photons_of. set (X := v_band_irradiance h) in *. set (Y := v_band_irradiance _) in *. rewrite <- HV8. generalize (photon_energy (b_center (nth i bins (Bin 0 0)))) (nth i (black_body bins 5778 100) 0) (total (black_body bins 5778 100)) (solar_full_integral bins) solar_vband_weighted (nth i albedo 0).
  intros. unfold Rdiv. ring.
Qed.
Print Assumptions C60_refuted_irradiance.

(** C84 *)
Lemma cos_prod a b : cos a * cos b = / 2 * (cos (a + b) + cos (a - b)).
Proof. rewrite cos_plus, cos_minus. field. Qed.
Lemma phase_is_lit alpha : lit_and_seen alpha (PI / 2 * lambert_phase alpha).
Proof.
  unfold lit_and_seen. pose proof PI_RGT_0 as PP.
  pose (F := fun x : R => / 2 * (sin (2 * x - alpha) / 2 + x * cos alpha)).
  assert (HI: is_RInt (fun lon => cos lon * cos (lon - alpha)) (alpha - PI / 2) (PI / 2) (minus (F (PI / 2)) (F (alpha - PI / 2)))).
  { apply (is_RInt_ext (fun x => / 2 * (cos (2 * x - alpha) + cos alpha))).
    - intros x _. rewrite (cos_prod x (x - alpha)). replace (x + (x - alpha)) with (2 * x - alpha) by ring. replace (x - (x - alpha)) with alpha by ring. reflexivity.
    - apply (is_RInt_derive F).
      + intros x _. unfold F. auto_derive; [auto|]. unfold Rminus. field.
      + intros x _. apply (ex_derive_continuous (fun x0 : R => / 2 * (cos (2 * x0 - alpha) + cos alpha))). auto_derive; auto. }
  replace (PI / 2 * lambert_phase alpha) with (minus (F (PI / 2)) (F (alpha - PI / 2))); [exact HI|].
  unfold minus, plus, opp, F, lambert_phase; cbn. replace (2 * (PI / 2) - alpha) with (PI - alpha) by field. replace (2 * (alpha - PI / 2) - alpha) with (- (PI - alpha)) by field.
  rewrite sin_neg. assert (E: sin (PI - alpha) = sin alpha) by (rewrite sin_minus, sin_PI, cos_PI; ring). rewrite E. field. lra.
Qed.
Lemma phase_total k : total_over_directions (fun a => k * lambert_phase a) (k * (3 / 2 * PI)).
Proof.
  unfold total_over_directions. pose proof PI_RGT_0 as PP.
  pose (F := fun a : R => k * (3 / 2 * (a - sin a * cos a) + (PI - a) * (sin a) ^ 2)).
  assert (HI: is_RInt (fun a => k * lambert_phase a * (2 * PI * sin a)) 0 PI (minus (F PI) (F 0))).
  { apply (is_RInt_derive F).
    - intros x _. unfold F, lambert_phase. auto_derive; [auto|]. pose proof (sin2_cos2 x) as SC. unfold Rsqr in SC.
      assert (C2: cos x * cos x = 1 - sin x * sin x) by lra. replace (k * ((sin x + (PI - x) * cos x) / PI) * (2 * PI * sin x)) with (k * (2 * sin x * sin x + 2 * (PI - x) * cos x * sin x)) by (field; lra). field_simplify_eq. ring [C2].
    - intros x _. apply (ex_derive_continuous (fun a : R => k * lambert_phase a * (2 * PI * sin a))). unfold lambert_phase. auto_derive; auto. }
  replace (k * (3 / 2 * PI)) with (minus (F PI) (F 0)); [exact HI|].
  unfold minus, plus, opp, F; cbn. rewrite sin_PI, sin_0. field.
Qed.
Lemma phase_derive a : is_derive lambert_phase a (- (PI - a) * sin a / PI).
Proof. pose proof PI_RGT_0. unfold lambert_phase. auto_derive; [auto|]. field. lra. Qed.
Lemma phase_decreasing a b : 0 <= a -> a <= b -> b <= PI -> lambert_phase b <= lambert_phase a.
Proof.
  intros Ha Hab Hb. destruct (Req_dec a b) as [->|N]; [lra|]. pose proof PI_RGT_0.
  destruct (MVT_cor2 lambert_phase (fun a => - (PI - a) * sin a / PI) a b ltac:(lra)) as (c & Hc & Hcb).
  { intros c Hc. apply is_derive_Reals, phase_derive. }
  assert (HS: 0 <= sin c) by (apply sin_ge_0; lra). assert (- (PI - c) * sin c / PI * (b - a) <= 0).
  { replace (- (PI - c) * sin c / PI * (b - a)) with (- ((PI - c) * sin c * / PI * (b - a))) by (field; lra).
    assert (0 <= (PI - c) * sin c * / PI * (b - a)); [|lra]. repeat apply Rmult_le_pos; try lra. apply Rlt_le, Rinv_0_lt_compat; lra. }
  lra.
Qed.
Lemma phase_bounds a : 0 <= a <= PI -> 0 <= lambert_phase a <= 1.
Proof.
  intros H. pose proof PI_RGT_0. assert (E0: lambert_phase 0 = 1) by (unfold lambert_phase; rewrite sin_0, cos_0; field; lra).
  assert (E1: lambert_phase PI = 0) by (unfold lambert_phase; rewrite sin_PI, cos_PI; field; lra).
  pose proof (phase_decreasing 0 a ltac:(lra) ltac:(lra) ltac:(lra)). pose proof (phase_decreasing a PI ltac:(lra) ltac:(lra) ltac:(lra)). lra.
Qed.
Definition body_phase (position light : vec3) (alpha : R) : Prop :=
  0 <= alpha <= PI /\ dot (vsub light position) (vsub vzero position) = dist light position * dist vzero position * cos alpha.
Lemma dist_sym a b : dist a b = dist b a.
Proof. unfold dist. f_equal. ring. Qed.
(* what is computed, and that nothing else throws *)
Theorem C84_irradiance_partial : forall radius albedo position l lp alpha, made_light l -> 0 < radius -> (forall x, In x albedo -> 0 <= x <= 1) ->
  (forall x, In x (sl_radiance l) -> 0 <= x) -> List.length albedo = List.length (sl_radiance l) -> position <> vzero -> lp <> position -> body_phase position lp alpha ->
  exists e, lambert_irradiance radius albedo position (Some (l, lp)) = Ok e /\ List.length e = List.length albedo /\
  forall i, (i < List.length albedo)%nat -> exists lit, lit_and_seen alpha lit /\
    nth i e 0 * (4 * (dist vzero position) ^ 2) = nth i albedo 0 * nth i (irradiance_at l position lp) 0 * radius ^ 2 * (lit / (PI / 2)).
Proof.
  intros radius albedo p l lp alpha HM Hrad HA HL HLen Hp Hlp (Hal & HD). pose proof PI_RGT_0 as PP. pose proof (made_pos l HM) as Hr.
  assert (D1: 0 < dist lp p) by (apply Rnot_le_lt; intros X; apply dist_zero in X; auto). assert (D2: 0 < dist vzero p) by (apply Rnot_le_lt; intros X; apply dist_zero in X; congruence).
  unfold lambert_irradiance. cbv zeta. assert (EV: vlen p = dist vzero p) by (rewrite dist_dot; unfold vlen; f_equal; unfold dot, vsub; cbn; ring).
  change (vlen (vsub lp p)) with (sqrt (dot (vsub lp p) (vsub lp p))). rewrite <- dist_dot. rewrite EV.
  rewrite (proj2 (Rleb_false _ _) D1), (proj2 (Rleb_false _ _) D2). cbn [orb].
  assert (HC: dot (vscale (/ dist vzero p) (vscale (-1) p)) (normalize (vsub lp p)) = cos alpha).
  { unfold normalize. change (vlen (vsub lp p)) with (sqrt (dot (vsub lp p) (vsub lp p))). rewrite <- dist_dot.
    transitivity (dot (vsub lp p) (vsub vzero p) / (dist lp p * dist vzero p)); [|rewrite HD; field; lra]. unfold dot, vscale, vsub; cbn. field. lra. }
  rewrite HC, acos_cos by lra. pose proof (phase_bounds alpha Hal) as PB.
  set (inc := irradiance_at l p lp).
  assert (LI: List.length inc = List.length albedo) by (unfold inc, irradiance_at; cbv zeta; destruct (Rleb _ _); unfold each; rewrite map_length; auto).
  assert (IN: forall x, In x inc -> 0 <= x).
  { intros x. unfold inc, irradiance_at. cbv zeta. destruct (Rleb _ _) eqn:E; rb; unfold each; rewrite in_map_iff; intros (y & <- & Hy); [lra|].
    pose proof (HL y Hy). apply Rmult_le_pos; [apply Rmult_le_pos; lra|]. apply Rmult_le_pos; [nra|]. apply Rlt_le, Rinv_0_lt_compat. nra. }
  set (e := each _ _).
  assert (LE: List.length e = List.length albedo).
  { unfold e, each. rewrite !map_length. rewrite zip_length; rewrite map_length; auto. }
  assert (NE: forall i, (i < List.length albedo)%nat -> nth i e 0 = nth i albedo 0 * (PI * radius * radius) * nth i inc 0 * lambert_phase alpha / (4 * PI * dist vzero p * dist vzero p)).
  { intros i Hi. unfold e. unfold each. rewrite (nth_map_any _ 0 0) by (rewrite map_length, zip_length; rewrite map_length; auto).
    rewrite (nth_map_any _ 0 0) by (rewrite zip_length; rewrite map_length; auto). rewrite nth_zip by (rewrite map_length; auto). rewrite (nth_map_any _ 0 0) by auto. reflexivity. }
  assert (HV: valid e = true).
  { unfold valid. apply forallb_forall. intros x Hx. apply (In_nth _ _ 0) in Hx. destruct Hx as (i & Hi & <-). rewrite LE in Hi. rewrite NE by auto.
    assert (0 <= nth i albedo 0) by (apply HA, nth_In; auto). assert (0 <= nth i inc 0) by (apply IN, nth_In; lia).
    apply Bool.negb_true_iff, Rltb_false. assert (Q: 0 < dist vzero p * dist vzero p) by nra. apply Rmult_le_pos; [|apply Rlt_le, Rinv_0_lt_compat; rewrite Rmult_assoc; apply Rmult_lt_0_compat; lra].
    apply Rmult_le_pos; [|lra]. apply Rmult_le_pos; [|lra]. apply Rmult_le_pos; [lra|]. apply Rmult_le_pos; [|lra]. nra. }
  rewrite HV. exists e. split; [reflexivity|]. split; [auto|]. intros i Hi. exists (PI / 2 * lambert_phase alpha). split; [apply phase_is_lit|].
  rewrite NE by auto. fold inc. field. split; lra.
Qed.
Print Assumptions C84_irradiance_partial.
Theorem C84_fades_partial : forall a b x y, 0 <= a -> a <= b -> b <= PI -> lit_and_seen a x -> lit_and_seen b y -> 0 <= y <= x /\ x <= PI / 2.
Proof.
  intros a b x y Ha Hab Hb Hx Hy. pose proof PI_RGT_0.
  rewrite <- (is_RInt_unique _ _ _ _ Hx), <- (is_RInt_unique _ _ _ _ Hy). rewrite (is_RInt_unique _ _ _ _ (phase_is_lit a)), (is_RInt_unique _ _ _ _ (phase_is_lit b)).
  pose proof (phase_decreasing a b Ha Hab Hb). pose proof (phase_bounds a ltac:(lra)). pose proof (phase_bounds b ltac:(lra)). split; [split|]; nra.
Qed.
Print Assumptions C84_fades_partial.
(* refuted: a sphere of albedo A does not reflect the share A of the light it receives but 3/8 of that. The observer is moved around the sphere (here: the
   light around sphere and observer) at constant distances *)
Theorem C84_refuted_energy : forall radius albedo l d D i, made_light l -> 0 < radius -> (forall x, In x albedo -> 0 <= x <= 1) ->
  (forall x, In x (sl_radiance l) -> 0 <= x) -> List.length albedo = List.length (sl_radiance l) -> 0 < d -> sl_radius l < D -> (i < List.length albedo)%nat ->
  let received := nth i (sl_radiance l) 0 * PI * (sl_radius l / D) ^ 2 * (PI * radius ^ 2) in
  exists f, (forall alpha, 0 <= alpha <= PI -> exists e, lambert_irradiance radius albedo (V3 d 0 0) (Some (l, V3 (d - D * cos alpha) (D * sin alpha) 0)) = Ok e /\ nth i e 0 = f alpha) /\
  total_over_directions (fun alpha => f alpha * d ^ 2) (3 / 8 * (nth i albedo 0 * received)) /\
  (0 < nth i albedo 0 -> 0 < nth i (sl_radiance l) 0 -> ~ total_over_directions (fun alpha => f alpha * d ^ 2) (nth i albedo 0 * received)).
Proof.
  intros radius albedo l d D i HM Hrad HA HL HLen Hd HD Hi received. pose proof PI_RGT_0 as PP. pose proof (made_pos l HM) as Hr.
  set (E := nth i (sl_radiance l) 0 * PI * (sl_radius l / D) ^ 2).
  exists (fun alpha => nth i albedo 0 * E * radius ^ 2 * lambert_phase alpha / (4 * d ^ 2)). split; [|].
  - intros alpha Hal. set (p := V3 d 0 0). set (lp := V3 (d - D * cos alpha) (D * sin alpha) 0).
    pose proof (sin2_cos2 alpha) as SC. unfold Rsqr in SC.
    assert (DP: dist vzero p = d). { unfold dist, p; cbn. replace (_ + _) with (d * d) by ring. apply sqrt_square. lra. }
    assert (WC: dot (vsub lp p) (vsub lp p) = D * D). { unfold dot, vsub, lp, p; cbn. transitivity (D * D * (sin alpha * sin alpha + cos alpha * cos alpha)); [ring|]. rewrite SC. ring. }
    assert (DL: dist lp p = D). { rewrite dist_dot, WC. apply sqrt_square. lra. }
    assert (NP: p <> vzero) by (intros X; inversion X; lra).
    assert (NL: lp <> p) by (intros X; rewrite X in DL; pose proof (proj2 (dist_zero p p) eq_refl); lra).
    assert (BP: body_phase p lp alpha). { split; [auto|]. rewrite DP, DL. unfold dot, vsub, lp, p; cbn. ring. }
    destruct (C84_irradiance_partial radius albedo p l lp alpha HM Hrad HA HL HLen NP NL BP) as (e & HE & HLE & HN). exists e. split; [exact HE|].
    destruct (HN i Hi) as (lit & Hlit & Heq). rewrite DP in Heq.
    assert (EL: lit = PI / 2 * lambert_phase alpha) by (rewrite <- (is_RInt_unique _ _ _ _ Hlit); apply is_RInt_unique, phase_is_lit).
    assert (EI: nth i (irradiance_at l p lp) 0 = E).
    { unfold irradiance_at. cbv zeta. rewrite WC. rewrite (proj2 (Rleb_false _ _)) by nra. unfold each. rewrite (nth_map_any _ 0 0) by lia. unfold E. field. lra. }
    rewrite EI, EL in Heq. apply (Rmult_eq_reg_r (4 * d ^ 2)); [|nra]. rewrite Heq. field. split; nra.
  - assert (T: total_over_directions (fun alpha => nth i albedo 0 * E * radius ^ 2 * lambert_phase alpha / (4 * d ^ 2) * d ^ 2) (3 / 8 * (nth i albedo 0 * received))).
    { pose proof (phase_total (nth i albedo 0 * E * radius ^ 2 / 4)) as T. unfold total_over_directions in *.
      replace (3 / 8 * (nth i albedo 0 * received)) with (nth i albedo 0 * E * radius ^ 2 / 4 * (3 / 2 * PI)) by (unfold received; fold E; field).
      revert T. apply is_RInt_ext. intros x _. match goal with |- ?a = ?b => change (@eq R a b) end. field. lra. }
    split; [exact T|]. intros Ha HR T'. assert (EQ: 3 / 8 * (nth i albedo 0 * received) = nth i albedo 0 * received) by (etransitivity; [symmetry; exact (is_RInt_unique _ _ _ _ T)|exact (is_RInt_unique _ _ _ _ T')]).
    assert (0 < nth i albedo 0 * received). { unfold received. assert (0 < (sl_radius l / D) ^ 2) by (apply pow_lt, Rdiv_lt_0_compat; lra). assert (0 < radius ^ 2) by (apply pow_lt; lra).
      apply Rmult_lt_0_compat; [lra|]. apply Rmult_lt_0_compat; [|apply Rmult_lt_0_compat; lra]. apply Rmult_lt_0_compat; [|lra]. apply Rmult_lt_0_compat; lra. } lra.
Qed.
Print Assumptions C84_refuted_energy.
Theorem C84_throws : forall radius albedo position, lambert_irradiance radius albedo position None = Throws /\
  (forall l lp, position = vzero \/ lp = position -> lambert_irradiance radius albedo position (Some (l, lp)) = Throws).
Proof.
  intros. split; [reflexivity|]. intros l lp HX. unfold lambert_irradiance. cbv zeta. change (vlen (vsub lp position)) with (sqrt (dot (vsub lp position) (vsub lp position))). rewrite <- dist_dot.
  destruct HX as [->| ->].
  - assert (E: vlen vzero = 0) by (unfold vlen, dot; cbn; replace (_ + _) with 0 by ring; apply sqrt_0). rewrite E. rewrite (proj2 (Rleb_true 0 0)) by lra. rewrite Bool.orb_true_r. reflexivity.
  - rewrite (proj2 (Rleb_true _ _) (proj2 (dist_zero position position) eq_refl)). reflexivity.
Qed.
Print Assumptions C84_throws.
Example C84_case : exists l, l = sphere_light_spectral 2 [4; 5] /\ made_light l /\ sl_radius l < 10 /\ (forall x, In x (sl_radiance l) -> 0 <= x).
Proof.
  eexists. split; [reflexivity|]. split; [left; exists 2, [4; 5]; reflexivity|]. unfold sphere_light_spectral. cbn [sl_radius sl_radiance].
  assert (ES: stored_radius 2 = 2) by (unfold stored_radius; apply Rmax_left; lra). rewrite ES. split; [lra|]. pose proof PI_RGT_0. unfold surface_area, each.
  intros x [<-|[<-|[]]]; apply Rlt_le, Rdiv_lt_0_compat; try lra; apply Rmult_lt_0_compat; try lra; replace (4 * PI * 2 * 2) with (16 * PI) by ring; lra.
Qed.
