From Verif Require Import Vec3 DistortionModel CameraModel SensorModel SensorSpec.

Lemma max_dn_pos s : (1 <= bit_depth s)%Z -> 1 <= max_dn s.
Proof.
  intros H. unfold max_dn. assert (2 ^ 1 <= 2 ^ Z.to_nat (bit_depth s)) by (apply Rle_pow; [lra | lia]). lra.
Qed.
Lemma clampR_range lo hi x : lo <= hi -> lo <= clampR lo hi x <= hi.
Proof. intros H. unfold clampR. destruct (Rltb x lo) eqn:A, (Rltb hi x) eqn:B; rb; lra. Qed.
Lemma clampR_mono lo hi x y : lo <= hi -> x <= y -> clampR lo hi x <= clampR lo hi y.
Proof. intros H Hxy. unfold clampR. destruct (Rltb x lo) eqn:A, (Rltb hi x) eqn:B, (Rltb y lo) eqn:C, (Rltb hi y) eqn:D; rb; lra. Qed.
Lemma adc_range s sig dark shot rn : valid_sensor s -> 0 <= noise_and_adc s sig dark shot rn <= 1.
Proof.
  intros (Hf & Hr & Hd & Hb & Hbit & Hg). unfold noise_and_adc. pose proof (max_dn_pos s Hbit) as M.
  match goal with |- _ <= clampR ?a ?b ?c / _ <= _ => pose proof (clampR_range a b c ltac:(lra)) as C; set (v := clampR a b c) in * end.
  split.
  - apply Rmult_le_pos; [lra|]. left. apply Rinv_0_lt_compat. lra.
  - apply Rmult_le_reg_r with (max_dn s); [lra|]. unfold Rdiv. rewrite Rmult_assoc, Rinv_l by lra. lra.
Qed.
Lemma adc_mono s sig sig' dark shot rn : valid_sensor s -> sig <= sig' -> noise_and_adc s sig dark shot rn <= noise_and_adc s sig' dark shot rn.
Proof.
  intros (Hf & Hr & Hd & Hb & Hbit & Hg) H. unfold noise_and_adc. pose proof (max_dn_pos s Hbit) as M.
  apply Rmult_le_compat_r; [left; apply Rinv_0_lt_compat; lra|]. apply clampR_mono; [lra|].
  apply Rplus_le_compat_r. apply Rmult_le_compat_r; [left; apply Rinv_0_lt_compat; lra|].
  apply Rle_min_compat_r. destruct (simulate_noise s); lra.
Qed.
(* the noiseless response in closed form *)
Lemma response_closed s e : valid_sensor s -> simulate_noise s = false -> 0 <= e ->
  response s e = Rmin e (saturation s) / gain s / max_dn s.
Proof.
  intros (Hf & Hr & Hd & Hb & Hbit & Hg) Hn He. unfold response, noise_and_adc. rewrite Hn. pose proof (max_dn_pos s Hbit) as M.
  rewrite !Rplus_0_r. f_equal. unfold saturation, clampR.
  assert (Z : forall a b, a / gain s < b <-> a < gain s * b).
  { intros a b. split; intros H.
    - apply (Rmult_lt_compat_l (gain s)) in H; auto. replace (gain s * (a / gain s)) with a in H by (field; lra). exact H.
    - apply Rmult_lt_reg_l with (gain s); auto. replace (gain s * (a / gain s)) with a by (field; lra). exact H. }
  assert (Q : forall a, 0 <= a -> Rltb (a / gain s) 0 = false).
  { intros a Ha. apply Rltb_false. apply Rmult_le_pos; auto. left. apply Rinv_0_lt_compat. auto. }
  rewrite Q by (apply Rmin_glb; lra).
  destruct (Rltb (max_dn s) (Rmin e (full_well s) / gain s)) eqn:E; rb.
  - assert (G : gain s * max_dn s < Rmin e (full_well s)).
    { apply (Rmult_lt_compat_l (gain s)) in E; auto. replace (gain s * (Rmin e (full_well s) / gain s)) with (Rmin e (full_well s)) in E by (field; lra). exact E. }
    assert (A := Rmin_l e (full_well s)). assert (B := Rmin_r e (full_well s)).
    rewrite (Rmin_right (full_well s)) by lra. rewrite Rmin_right by lra. field. lra.
  - assert (G : Rmin e (full_well s) <= gain s * max_dn s).
    { apply (Rmult_le_compat_l (gain s)) in E; [|lra]. replace (gain s * (Rmin e (full_well s) / gain s)) with (Rmin e (full_well s)) in E by (field; lra). exact E. }
    f_equal. rewrite Rmin_assoc. rewrite (Rmin_left (Rmin e (full_well s))); auto.
Qed.

(* ---- setters ---- *)
Lemma checked_throw {A} s (o : option A) f : snd (checked s o f) = true -> fst (checked s o f) = s.
Proof. destruct o; cbn; [discriminate|auto]. Qed.
Lemma sensor_throw k s : snd (sensor_do k s) = true -> fst (sensor_do k s) = s.
Proof. destruct k; cbn [sensor_do]; try apply checked_throw. cbn. discriminate. Qed.
Lemma pos_finite_some a r : pos_finite a = Some r -> 0 < r.
Proof. unfold pos_finite. destruct a; try discriminate. destruct (Rleb r0 0) eqn:E; [discriminate|]. rb. intros H; inversion H; subst; auto. Qed.
Lemma nonneg_finite_some a r : nonneg_finite a = Some r -> 0 <= r.
Proof. unfold nonneg_finite. destruct a; try discriminate. destruct (Rltb r0 0) eqn:E; [discriminate|]. rb. intros H; inversion H; subst; auto. Qed.
Lemma checked_valid {A} s (o : option A) f : valid_sensor s -> (forall r, o = Some r -> valid_sensor (f r)) -> valid_sensor (fst (checked s o f)).
Proof. intros H K. destruct o; cbn; auto. Qed.
Lemma sensor_do_valid k s : valid_sensor s -> valid_sensor (fst (sensor_do k s)).
Proof.
  intros V. assert (V' := V). destruct V' as (Hf & Hr & Hd & Hb & Hbit & Hg).
  destruct k; cbn [sensor_do]; try (apply checked_valid; auto; intros r E);
  try (apply pos_finite_some in E); try (apply nonneg_finite_some in E); try (repeat split; auto; fail).
  - destruct (n <=? 0)%Z eqn:L; [discriminate|]. inversion E; subst. repeat split; auto. cbn. lia.
  - repeat split; auto. cbn. apply exp_pos.
Qed.
Lemma sensor_run_valid l : forall s, valid_sensor s -> valid_sensor (sensor_run l s).
Proof. induction l as [|k l IH]; intros s H; cbn; auto. apply IH, sensor_do_valid, H. Qed.
Lemma sensor0_valid : valid_sensor sensor0.
Proof. unfold valid_sensor, sensor0; cbn. repeat split; try lra; try lia. Qed.

Lemma gain_db_round s g : fst (set_gain_db (Fin g) s) = with_gain (Rpower 10 ((unity_db s - g) / 20)) s /\ gain_db (fst (set_gain_db (Fin g) s)) = g.
Proof.
  split; [reflexivity|]. cbn. unfold gain_db, with_gain, log10; cbn. unfold Rpower. rewrite ln_exp.
  assert (ln 10 <> 0). { assert (0 < ln 10) by (rewrite <- ln_1; apply ln_increasing; lra). lra. } field. auto.
Qed.

(* ---- read-out ---- *)
Lemma readout_quiet {rng} (gen : R -> rng -> R * rng) s dark px st : simulate_noise s = false ->
  readout gen s dark px st = (map (fun e => noise_and_adc s e dark 0 0) px, st).
Proof.
  intros Hn. induction px as [|e r IH]; cbn [readout map]; auto. rewrite Hn, IH. reflexivity.
Qed.
Lemma readout_range {rng} (gen : R -> rng -> R * rng) s dark : valid_sensor s -> forall px st x, In x (fst (readout gen s dark px st)) -> 0 <= x <= 1.
Proof.
  intros Hv. induction px as [|e r IH]; intros st x; cbn [readout]; [contradiction|].
  destruct (if simulate_noise s then gen (sqrt (e + dark)) st else (0, st)) as [shot st1].
  destruct (if simulate_noise s then gen (read_noise s) st1 else (0, st1)) as [rn st2].
  specialize (IH st2). destruct (readout gen s dark r st2) as [out st3]. cbn [fst] in *. intros [<-|H]; [apply adc_range; auto | apply IH; auto].
Qed.
Lemma readout_length {rng} (gen : R -> rng -> R * rng) s dark : forall px st, List.length (fst (readout gen s dark px st)) = List.length px.
Proof.
  induction px as [|e r IH]; intros st; cbn [readout]; auto.
  destruct (if simulate_noise s then gen (sqrt (e + dark)) st else (0, st)) as [shot st1].
  destruct (if simulate_noise s then gen (read_noise s) st1 else (0, st1)) as [rn st2].
  specialize (IH st2). destruct (readout gen s dark r st2) as [out st3]. cbn [fst] in *. cbn. auto.
Qed.

(* ---- aperture ---- *)
Lemma sample_on_disc ap u : 0 <= fst u <= 1 -> 0 <= snd u <= 1 -> on_disc (ap_radius ap) (aperture_sample ap u).
Proof.
  intros H1 H2. unfold aperture_sample, on_disc.
  assert (E : forall r k t, -1 <= k <= 1 -> r * k * cos t * (r * k * cos t) + r * k * sin t * (r * k * sin t) <= r * r).
  { intros r k t Hk. pose proof (sin2_cos2 t) as S. unfold Rsqr in S.
    replace (r * k * cos t * (r * k * cos t) + r * k * sin t * (r * k * sin t)) with (r * r * (k * k) * (sin t * sin t + cos t * cos t)) by ring.
    rewrite S. assert (k * k <= 1) by nra. assert (0 <= r * r) by nra. nra. }
  destruct (Rltb _ _); cbn [fst snd]; [apply E; lra|]. destruct (Req_EM_T _ 0); cbn [fst snd]; [nra | apply E; lra].
Qed.
Lemma area_radius a : 0 <= a -> PI * (ap_radius (set_area a) * ap_radius (set_area a)) = ap_area (set_area a).
Proof.
  intros H. unfold set_area; cbn. pose proof PI_RGT_0.
  replace (sqrt (4 * a / PI) / 2 * (sqrt (4 * a / PI) / 2)) with (sqrt (4 * a / PI) * sqrt (4 * a / PI) / 4) by field.
  rewrite sqrt_sqrt; [field; lra|]. apply Rmult_le_pos; [lra|]. left. apply Rinv_0_lt_compat. auto.
Qed.
Lemma fstop_round f n : 0 < f -> 0 < n -> fstop f (set_fstop f n) = n.
Proof.
  intros Hf Hn. unfold fstop, set_fstop, set_area; cbn. pose proof PI_RGT_0.
  replace (PI * (f / n * (f / n)) / 4 / PI) with ((f / n / 2) * (f / n / 2)) by (field; lra).
  assert (0 < f / n) by (apply Rdiv_lt_0_compat; auto). rewrite sqrt_square by lra. field. lra.
Qed.
