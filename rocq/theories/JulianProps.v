(** * C151: moments in double precision. *)
From Coq Require Import Reals ZArith Lra Lia.
From Flocq Require Import Core Relative.
From Verif Require Import JulianModel.
Open Scope R_scope.

#[local] Instance prec53 : Prec_gt_0 53. Proof. reflexivity. Qed.
Notation fexp := (FLT_exp (-1074) 53).
Notation B := (bpow radix2).
Lemma dbl_id x : is_double x -> dbl x = x.
Proof. apply round_generic; auto with typeclass_instances. Qed.
Lemma dbl_double x : is_double (dbl x).
Proof. apply generic_format_round; auto with typeclass_instances. Qed.
Lemma dbl_mono x y : x <= y -> dbl x <= dbl y.
Proof. apply round_le; auto with typeclass_instances. Qed.
Lemma dbl_nearest x g : is_double g -> Rabs (dbl x - x) <= Rabs (g - x).
Proof. intros G. pose proof (round_N_pt radix2 fexp (fun t => negb (Z.even t)) x) as (_ & H). apply H, G. Qed.
(* absolute error *)
Lemma dbl_abs x e : (-1000 <= e)%Z -> Rabs x < B e -> Rabs (dbl x - x) <= B (e - 54).
Proof.
  intros E H. destruct (Req_dec x 0) as [-> |N]. { unfold dbl. rewrite round_0 by auto with typeclass_instances. replace (0 - 0) with 0 by ring. rewrite Rabs_R0. apply bpow_ge_0. }
  eapply Rle_trans; [apply error_le_half_ulp; auto with typeclass_instances|]. rewrite ulp_neq_0 by auto. unfold cexp.
  assert (M: (mag radix2 x <= e)%Z) by (apply mag_le_bpow; auto).
  replace (e - 54)%Z with (-1 + (e - 53))%Z by lia. rewrite bpow_plus. replace (B (-1)) with (/ 2) by (cbn; lra). apply Rmult_le_compat_l; [lra|]. apply bpow_le. unfold FLT_exp. lia.
Qed.
(* doubles of at least 2^e are multiples of 2^(e - 52) *)
Lemma double_grid x e : is_double x -> B e <= Rabs x -> exists m, x = IZR m * B (e - 52).
Proof.
  intros F H. assert (N: x <> 0) by (intros ->; rewrite Rabs_R0 in H; pose proof (bpow_gt_0 radix2 e); lra).
  assert (M: (e + 1 <= mag radix2 x)%Z) by (apply mag_ge_bpow; replace (e + 1 - 1)%Z with e by lia; auto).
  unfold is_double, generic_format, F2R in F. cbn [Fnum Fexp] in F. set (k := cexp radix2 fexp x) in *.
  assert (K: (e - 52 <= k)%Z) by (unfold k, cexp, FLT_exp; lia).
  exists (Ztrunc (scaled_mantissa radix2 fexp x) * 2 ^ (k - (e - 52)))%Z. rewrite F at 1. rewrite mult_IZR. change 2%Z with (radix_val radix2). rewrite IZR_Zpower by lia. rewrite Rmult_assoc, <- bpow_plus. do 2 f_equal. lia.
Qed.
Lemma grid_double m k : (Z.abs m < 2 ^ 53)%Z -> (-1074 <= k)%Z -> is_double (IZR m * B k).
Proof. intros M K. apply generic_format_FLT. exists (Float radix2 m k); cbn; auto. Qed.
Lemma grid_apart m n k : Rabs (IZR m * B k - IZR n * B k) < B k -> m = n.
Proof.
  intros H. rewrite <- Rmult_minus_distr_r, Rabs_mult, (Rabs_right (B k)) in H by (apply Rle_ge, bpow_ge_0).
  pose proof (bpow_gt_0 radix2 k). assert (L: Rabs (IZR m - IZR n) < 1) by nra. rewrite <- minus_IZR in L. rewrite <- abs_IZR in L. apply lt_IZR in L. lia.
Qed.
Lemma B31 : B (-31) = / 2147483648. Proof. reflexivity. Qed.
Lemma B32 : B (-32) = / 4294967296. Proof. reflexivity. Qed.

(* dates of the years 1037 to 4870 lie on the grid of 2^-31 days; on it the distance to J2000 is exact *)
Lemma jd_grid jd : is_double jd -> 2097152 <= jd -> exists m, jd = IZR m * B (-31).
Proof. intros F H. apply (double_grid jd 21); auto. rewrite Rabs_right by lra. cbn. lra. Qed.
Lemma offset_exact m o k : o = IZR k * B (-31) -> Rabs (IZR m * B (-31) - o) < 4194304 -> is_double (IZR m * B (-31) - o) /\ IZR m * B (-31) - o = IZR (m - k) * B (-31).
Proof.
  intros -> H. assert (E: IZR m * B (-31) - IZR k * B (-31) = IZR (m - k) * B (-31)) by (rewrite minus_IZR; ring). rewrite E in *. split; auto. apply grid_double; [|lia].
  rewrite Rabs_mult, (Rabs_right (B (-31))) in H by (rewrite B31; lra). rewrite B31 in H. assert (L: Rabs (IZR (m - k)) < 4194304 * 2147483648) by nra.
  rewrite <- abs_IZR, <- mult_IZR in L. apply lt_IZR in L. lia.
Qed.
Lemma j2000_grid : J2000_JD = IZR (2451545 * 2147483648) * B (-31).
Proof. unfold J2000_JD. rewrite B31, mult_IZR. field. Qed.
Lemma mjd_off_grid : MJD_OFFSET = IZR (4800001 * 1073741824) * B (-31).
Proof. unfold MJD_OFFSET. rewrite B31, mult_IZR. field. Qed.
Lemma from_jd_exact_days jd m : jd = IZR m * B (-31) -> Rabs (jd - J2000_JD) < 4194304 -> dbl (jd - J2000_JD) = jd - J2000_JD.
Proof. intros -> H. apply dbl_id, (offset_exact _ _ _ j2000_grid H). Qed.

(* a Julian date comes back exactly as it was given *)
Theorem C151_date_exact : forall jd, is_double jd -> 2100000 <= jd <= 3500000 -> to_jd (from_jd jd) = jd.
Proof.
  intros jd F (L & U). destruct (jd_grid jd F ltac:(lra)) as (m & E). unfold to_jd, from_jd.
  assert (X: Rabs (jd - J2000_JD) <= 1048455) by (apply Rabs_le; unfold J2000_JD; lra).
  rewrite (from_jd_exact_days jd m E) by lra. set (x := jd - J2000_JD) in *. unfold SECONDS_PER_DAY.
  assert (Y: Rabs (dbl (x * 86400) - x * 86400) <= B (-17)). { apply (dbl_abs _ 37); [lia|]. rewrite Rabs_mult, (Rabs_right 86400) by lra. cbn. lra. }
  set (y := dbl (x * 86400)) in *. assert (YB: Rabs (y / 86400 - x) <= / 131072 / 86400).
  { replace (y / 86400 - x) with ((y - x * 86400) / 86400) by field. unfold Rdiv at 1. rewrite Rabs_mult, (Rabs_right (/ 86400)) by lra. change (B (-17)) with (/ 131072) in Y. lra. }
  assert (Z: Rabs (dbl (y / 86400) - y / 86400) <= B (-34)). { apply (dbl_abs _ 20); [lia|]. cbn. apply Rabs_le_inv in YB. apply Rabs_le_inv in X. apply Rabs_lt. lra. }
  set (z := dbl (y / 86400)) in *. change (B (-34)) with (/ 17179869184) in Z.
  assert (D: Rabs (jd - (J2000_JD + z)) < / 4294967296 * (99 / 100)). { apply Rabs_le_inv in YB. apply Rabs_le_inv in Z. unfold x in *. apply Rabs_lt. lra. }
  pose proof (dbl_nearest (J2000_JD + z) jd F) as N. set (r := dbl (J2000_JD + z)) in *.
  assert (RJ: Rabs (r - jd) < B (-31)). { rewrite B31. apply Rabs_lt_inv in D. assert (Rabs (r - (J2000_JD + z)) < / 4294967296 * (99 / 100)) as N' by (eapply Rle_lt_trans; [apply N|]; apply Rabs_lt; lra). apply Rabs_lt_inv in N'. apply Rabs_lt. lra. }
  assert (RL: 2097152 <= r). { rewrite B31 in RJ. apply Rabs_lt_inv in RJ. lra. }
  destruct (jd_grid r (dbl_double _) RL) as (n & En). rewrite En, E in *. f_equal. f_equal. eapply grid_apart; eauto.
Qed.

(* so different dates are different moments, in the order of the dates *)
Theorem C151_date_order : forall a b, is_double a -> is_double b -> 2100000 <= a <= 3500000 -> 2100000 <= b <= 3500000 -> (a < b <-> from_jd a < from_jd b).
Proof.
  intros a b Fa Fb A Bb. assert (M: forall u v, u <= v -> from_jd u <= from_jd v). { intros u v H. unfold from_jd. apply dbl_mono. unfold SECONDS_PER_DAY. apply Rmult_le_compat_r; [lra|]. apply dbl_mono. lra. }
  split; intros H.
  - destruct (M a b) as [|E]; [lra|auto|]. exfalso. rewrite <- (C151_date_exact a Fa A), <- (C151_date_exact b Fb Bb), E in H. lra.
  - destruct (Rlt_or_le a b) as [|G]; auto. specialize (M b a G). lra.
Qed.
(* the moment of a date: within 8 microseconds of the exact one, exact at midnight and noon *)
Theorem C151_date_moment : forall jd, is_double jd -> 2100000 <= jd <= 3500000 ->
  Rabs (from_jd jd - (jd - 2451545) * 86400) <= 8 / 1000000 /\ ((exists h, jd = IZR h / 2) -> from_jd jd = (jd - 2451545) * 86400).
Proof.
  intros jd F (L & U). destruct (jd_grid jd F ltac:(lra)) as (m & E).
  assert (X: Rabs (jd - J2000_JD) <= 1048455) by (apply Rabs_le; unfold J2000_JD; lra).
  unfold from_jd. rewrite (from_jd_exact_days jd m E) by lra. change J2000_JD with 2451545 in *. unfold SECONDS_PER_DAY. split.
  - eapply Rle_trans; [apply (dbl_abs _ 37); [lia|]|]. { rewrite Rabs_mult, (Rabs_right 86400) by lra. cbn. lra. } change (B (37 - 54)) with (/ 131072). lra.
  - intros (h & H). apply dbl_id. replace ((jd - 2451545) * 86400) with (IZR ((h - 4903090) * 43200) * B 0) by (rewrite mult_IZR, minus_IZR, H; cbn; field). apply grid_double; [|lia].
    rewrite H in X. assert (Rabs (IZR h - 4903090) <= 2096910). { replace (IZR h - 4903090) with ((IZR h / 2 - 2451545) * 2) by field. rewrite Rabs_mult, (Rabs_right 2) by lra. lra. }
    rewrite <- minus_IZR in H0. rewrite <- abs_IZR in H0. apply le_IZR in H0. lia.
Qed.
(* a moment within 950 years of J2000 comes back from its Julian date within 30 microseconds *)
Theorem C151_moment_error : forall et, is_double et -> Rabs et <= 30000000000 -> Rabs (from_jd (to_jd et) - et) <= 30 / 1000000.
Proof.
  intros et F H. unfold to_jd. assert (Q: Rabs (et / SECONDS_PER_DAY) <= 347223). { unfold SECONDS_PER_DAY, Rdiv. rewrite Rabs_mult, (Rabs_right (/ 86400)) by lra. lra. }
  assert (Z: Rabs (dbl (et / SECONDS_PER_DAY) - et / SECONDS_PER_DAY) <= B (-35)). { apply (dbl_abs _ 19); [lia|]. cbn. lra. }
  set (z := dbl (et / SECONDS_PER_DAY)) in *. change (B (-35)) with (/ 34359738368) in Z. unfold SECONDS_PER_DAY in *.
  apply Rabs_le_inv in Q. apply Rabs_le_inv in Z.
  assert (J: Rabs (dbl (J2000_JD + z) - (J2000_JD + z)) <= B (-32)). { apply (dbl_abs _ 22); [lia|]. unfold J2000_JD. cbn. apply Rabs_lt. lra. }
  assert (JL: 2097152 <= dbl (J2000_JD + z)). { rewrite B32 in J. apply Rabs_le_inv in J. unfold J2000_JD in *. lra. }
  set (j := dbl (J2000_JD + z)) in *. destruct (jd_grid j (dbl_double _) JL) as (m & E). rewrite B32 in J. apply Rabs_le_inv in J.
  unfold from_jd. rewrite (from_jd_exact_days j m E) by (apply Rabs_lt; lra). unfold SECONDS_PER_DAY.
  assert (Y: Rabs (dbl ((j - J2000_JD) * 86400) - (j - J2000_JD) * 86400) <= B (-19)). { apply (dbl_abs _ 35); [lia|]. rewrite Rabs_mult, (Rabs_right 86400) by lra. cbn. assert (Rabs (j - J2000_JD) <= 347224) by (apply Rabs_le; lra). lra. }
  change (B (-19)) with (/ 524288) in Y. apply Rabs_le_inv in Y. apply Rabs_le. lra.
Qed.

Lemma mjd_forward mjd : 40000 <= mjd <= 100000 -> exists m, dbl (mjd + MJD_OFFSET) = IZR m * B (-31) /\ Rabs (dbl (mjd + MJD_OFFSET) - (mjd + MJD_OFFSET)) <= B (-32) /\ 2440000 <= dbl (mjd + MJD_OFFSET) <= 2500001.
Proof.
  intros (L & U). assert (E: Rabs (dbl (mjd + MJD_OFFSET) - (mjd + MJD_OFFSET)) <= B (-32)). { apply (dbl_abs _ 22); [lia|]. unfold MJD_OFFSET. cbn. apply Rabs_lt. lra. }
  assert (R: 2440000 <= dbl (mjd + MJD_OFFSET) <= 2500001). { rewrite B32 in E. apply Rabs_le_inv in E. unfold MJD_OFFSET in *. lra. }
  destruct (jd_grid _ (dbl_double (mjd + MJD_OFFSET)) ltac:(lra)) as (m & M). exists m. auto.
Qed.
Lemma mjd_back mjd : 40000 <= mjd <= 100000 -> to_mjd (from_mjd mjd) = dbl (mjd + MJD_OFFSET) - MJD_OFFSET.
Proof.
  intros H. destruct (mjd_forward mjd H) as (m & M & _ & R). unfold to_mjd, from_mjd. rewrite C151_date_exact; [|apply dbl_double|lra]. apply dbl_id. rewrite M in *.
  apply (offset_exact m MJD_OFFSET _ mjd_off_grid). unfold MJD_OFFSET. apply Rabs_lt. lra.
Qed.
(* a modified Julian date (1968 to 2132) comes back within 2^-32 of a day, 20 microseconds *)
Theorem C151_modified_error : forall mjd, is_double mjd -> 40000 <= mjd <= 100000 -> Rabs (to_mjd (from_mjd mjd) - mjd) <= / 2 ^ 32.
Proof.
  intros mjd _ H. rewrite mjd_back by auto. destruct (mjd_forward mjd H) as (m & M & E & _). replace (dbl (mjd + MJD_OFFSET) - MJD_OFFSET - mjd) with (dbl (mjd + MJD_OFFSET) - (mjd + MJD_OFFSET)) by ring.
  replace (/ 2 ^ 32) with (B (-32)) by (rewrite B32; f_equal; cbn; lra). auto.
Qed.
(* and exactly when it is a multiple of 2^-31 of a day *)
Theorem C151_modified_exact : forall mjd, (exists n, mjd = IZR n / 2 ^ 31) -> 40000 <= mjd <= 100000 -> to_mjd (from_mjd mjd) = mjd.
Proof.
  intros mjd (n & N) H. rewrite mjd_back by auto. rewrite dbl_id; [ring|]. assert (E: mjd + MJD_OFFSET = IZR (n + 4800001 * 1073741824) * B (-31)). { rewrite plus_IZR, Rmult_plus_distr_r, <- mjd_off_grid, N, B31. f_equal. unfold Rdiv. f_equal. f_equal. cbn. lra. }
  rewrite E. apply grid_double; [|lia]. assert (IZR n <= 100000 * 2 ^ 31 /\ 0 <= IZR n). { split; apply Rmult_le_reg_r with (/ 2 ^ 31); try (apply Rinv_0_lt_compat, pow_lt; lra); unfold Rdiv in N; rewrite <- N; [rewrite Rmult_assoc, Rinv_r by (apply pow_nonzero; lra)|]; lra. }
  destruct H0 as (H0 & H1). replace (100000 * 2 ^ 31) with (IZR (100000 * 2 ^ 31)) in H0 by (rewrite mult_IZR; f_equal; cbn; lra). apply le_IZR in H0. apply le_IZR in H1. lia.
Qed.
(* the moment of a modified Julian date: MJD 51544.5 is J2000; within 29 microseconds *)
Theorem C151_modified_moment : forall mjd, is_double mjd -> 40000 <= mjd <= 100000 -> Rabs (from_mjd mjd - (mjd - 515445 / 10) * 86400) <= 29 / 1000000.
Proof.
  intros mjd _ H. destruct (mjd_forward mjd H) as (m & M & E & R). unfold from_mjd. destruct (C151_date_moment (dbl (mjd + MJD_OFFSET)) (dbl_double _) ltac:(lra)) as (D & _).
  rewrite B32 in E. apply Rabs_le_inv in E. apply Rabs_le_inv in D. unfold MJD_OFFSET in *. apply Rabs_le. lra.
Qed.
(* full statement: a modified Julian date comes back as given. Refuted: the offset costs six bits *)
Theorem C151_refuted_modified : exists mjd, is_double mjd /\ 40000 <= mjd <= 100000 /\ to_mjd (from_mjd mjd) <> mjd.
Proof.
  exists (60000 + / 2 ^ 37). assert (P: 0 < / 2 ^ 37 < 1) by (split; [apply Rinv_0_lt_compat, pow_lt; lra|rewrite <- Rinv_1; apply Rinv_lt_contravar; cbn; lra]).
  split. { replace (60000 + / 2 ^ 37) with (IZR (60000 * 2 ^ 37 + 1) * B (-37)); [apply grid_double; lia|]. rewrite plus_IZR, mult_IZR. change (B (-37)) with (/ IZR (2 ^ 37)). replace (2 ^ 37) with (IZR (2 ^ 37)) by (cbn; lra). field. apply not_0_IZR. lia. }
  split; [lra|]. rewrite mjd_back by lra. destruct (mjd_forward (60000 + / 2 ^ 37) ltac:(lra)) as (m & M & E & _). intros C.
  rewrite M in *. assert (G: 60000 = IZR (60000 * 2147483648) * B (-31)) by (rewrite B31, mult_IZR; field).
  assert (Z: IZR m * B (-31) = IZR (60000 * 2147483648 + 4800001 * 1073741824) * B (-31)).
  { f_equal. f_equal. apply grid_apart with (-31)%Z. rewrite (plus_IZR (60000 * 2147483648)), Rmult_plus_distr_r, <- mjd_off_grid, <- G. replace (IZR m * B (-31) - (60000 + MJD_OFFSET)) with (/ 2 ^ 37) by lra. rewrite B31, Rabs_right by lra. apply Rinv_lt_contravar; cbn; lra. }
  rewrite plus_IZR, Rmult_plus_distr_r, <- mjd_off_grid, <- G in Z. lra.
Qed.
(* full statement: a moment comes back from its Julian date. Refuted: one microsecond after J2000 has the date of J2000 *)
Theorem C151_refuted_moment : exists et, is_double et /\ Rabs et <= 1 /\ from_jd (to_jd et) <> et.
Proof.
  exists (/ 1048576). assert (F: is_double (/ 1048576)) by (replace (/ 1048576) with (IZR 1 * B (-20)) by (cbn; lra); apply grid_double; lia).
  split; auto. split; [rewrite Rabs_right; lra|].
  assert (T: to_jd (/ 1048576) = J2000_JD).
  { unfold to_jd, SECONDS_PER_DAY. assert (Z: Rabs (dbl (/ 1048576 / 86400) - / 1048576 / 86400) <= B (-90)) by (apply (dbl_abs _ (-36)); [lia|]; cbn; rewrite Rabs_right; lra).
    set (z := dbl _) in *. assert (Z2: Rabs z <= B (-34)) by (apply Rabs_le_inv in Z; cbn in *; apply Rabs_le; lra). change (B (-34)) with (/ 17179869184) in Z2. apply Rabs_le_inv in Z2.
    assert (JD: is_double J2000_JD) by (rewrite j2000_grid; apply grid_double; lia).
    pose proof (dbl_nearest (J2000_JD + z) J2000_JD JD) as N. replace (J2000_JD - (J2000_JD + z)) with (- z) in N by ring. rewrite Rabs_Ropp in N.
    assert (N2: Rabs (dbl (J2000_JD + z) - (J2000_JD + z)) <= / 17179869184) by (eapply Rle_trans; [apply N|apply Rabs_le; lra]). apply Rabs_le_inv in N2.
    destruct (jd_grid (dbl (J2000_JD + z)) (dbl_double _)) as (m & M); [unfold J2000_JD in *; lra|]. assert (Q: m = (2451545 * 2147483648)%Z). { apply grid_apart with (-31)%Z. rewrite <- j2000_grid, <- M, B31. apply Rabs_lt. unfold J2000_JD in *. lra. }
    rewrite M, Q, <- j2000_grid. reflexivity. }
  rewrite T. unfold from_jd. replace (J2000_JD - J2000_JD) with 0 by ring. rewrite (dbl_id 0) by apply generic_format_0. rewrite Rmult_0_l, (dbl_id 0) by apply generic_format_0. lra.
Qed.
(* durations: within 34 years of J2000 adding and subtracting a duration below 12 days is good to a quarter microsecond *)
Theorem C151_duration_error : forall t d, Rabs t <= 2 ^ 30 -> Rabs d <= 2 ^ 20 -> Rabs (start_duration t d - d) <= / 2 ^ 22.
Proof.
  intros t d T D. unfold start_duration, time_sub, time_add. apply Rabs_le_inv in T. apply Rabs_le_inv in D. replace (2 ^ 30) with 1073741824 in * by (cbn; lra). replace (2 ^ 20) with 1048576 in * by (cbn; lra).
  assert (E: Rabs (dbl (t + d) - (t + d)) <= B (-23)) by (apply (dbl_abs _ 31); [lia|]; cbn; apply Rabs_lt; lra). set (v := dbl (t + d)) in *. change (B (-23)) with (/ 8388608) in E. apply Rabs_le_inv in E.
  assert (G: Rabs (dbl (v - t) - (v - t)) <= B (-33)) by (apply (dbl_abs _ 21); [lia|]; cbn; apply Rabs_lt; lra). change (B (-33)) with (/ 8589934592) in G. apply Rabs_le_inv in G.
  replace (/ 2 ^ 22) with (/ 4194304) by (f_equal; cbn; lra). apply Rabs_le. lra.
Qed.
(* full statement: an interval lasts as long as asked. Refuted: in 2034 an exposure of 60 nanoseconds has no duration at all *)
Theorem C151_refuted_duration : exists t d, is_double t /\ is_double d /\ Rabs t <= 2 ^ 30 /\ 0 < d /\ start_duration t d = 0.
Proof.
  exists (B 30), (B (-24)). assert (FT: is_double (B 30)) by (apply generic_format_FLT_bpow; auto with typeclass_instances; lia).
  split; auto. split; [apply generic_format_FLT_bpow; auto with typeclass_instances; lia|]. split; [rewrite Rabs_right; [cbn; lra|apply Rle_ge, bpow_ge_0]|]. split; [apply bpow_gt_0|].
  unfold start_duration, time_add, time_sub. assert (T: dbl (B 30 + B (-24)) = B 30).
  { pose proof (dbl_nearest (B 30 + B (-24)) (B 30) FT) as N. replace (B 30 - (B 30 + B (-24))) with (- B (-24)) in N by ring. rewrite Rabs_Ropp, (Rabs_right (B (-24))) in N by (apply Rle_ge, bpow_ge_0). apply Rabs_le_inv in N.
    assert (L: B 30 <= dbl (B 30 + B (-24))). { rewrite <- (dbl_id (B 30) FT) at 1. apply dbl_mono. pose proof (bpow_ge_0 radix2 (-24)). lra. }
    destruct (double_grid (dbl (B 30 + B (-24))) 30 (dbl_double _)) as (m & M); [rewrite Rabs_right; auto; apply Rle_ge; eapply Rle_trans; [apply bpow_ge_0|apply L]|].
    rewrite M in *. change (30 - 52)%Z with (-22)%Z in *. assert (E: B 30 = IZR (2 ^ 52) * B (-22)) by (change (IZR (2 ^ 52)) with (B 52); rewrite <- (bpow_plus radix2 52 (-22)); reflexivity). assert (Q: m = (2 ^ 52)%Z). { apply grid_apart with (-22)%Z. rewrite <- E. change (B (-24)) with (/ 16777216) in N. change (B (-22)) with (/ 4194304) in *. apply Rabs_lt. lra. }
    rewrite Q, <- E. reflexivity. }
  rewrite T. replace (B 30 - B 30) with 0 by ring. apply dbl_id, generic_format_0.
Qed.
(* the years since J2000 handed to the star catalogue: the sign of the moment, and within one part in 2^53 of the exact number, unless it is a denormal *)
Theorem C151_years : forall et, (0 <= et -> 0 <= years et) /\ (et <= 0 -> years et <= 0) /\ years 0 = 0 /\
  (/ 2 ^ 100 <= Rabs et -> Rabs (years et - et / (36525 * 86400 / 100)) <= / 2 ^ 53 * Rabs (et / (36525 * 86400 / 100))).
Proof.
  intros et. unfold years, SECONDS_PER_JULIAN_YEAR. assert (Z: dbl 0 = 0) by apply dbl_id, generic_format_0.
  split. { intros H. rewrite <- Z. apply dbl_mono. lra. } split. { intros H. rewrite <- Z. apply dbl_mono. lra. } split. { unfold Rdiv. rewrite Rmult_0_l. auto. }
  intros H. replace (36525 * 86400 / 100) with 31557600 by lra. pose proof (relative_error_N_FLT radix2 (-1074) 53 eq_refl (fun t => negb (Z.even t)) (et / 31557600)) as R.
  replace (/ 2 ^ 53) with (/ 2 * B (- (53) + 1)). apply R.
  - apply Rle_trans with (B (-100) / 33554432). { change 33554432 with (B 25). unfold Rdiv. rewrite <- bpow_opp, <- bpow_plus. apply bpow_le. lia. }
    unfold Rdiv. rewrite Rabs_mult, (Rabs_right (/ 31557600)) by lra. apply Rmult_le_compat; try lra. apply bpow_ge_0. replace (B (-100)) with (/ 2 ^ 100); auto. change (-100)%Z with (Z.opp 100). rewrite (bpow_opp radix2 100), (bpow_powerRZ radix2 100). f_equal.
  - change (B (- (53) + 1)) with (/ 4503599627370496). cbn. lra.
Qed.
(* two dates that meet the hypotheses: J2000 and an hour-and-a-bit later *)
Example C151_case : is_double 2451545 /\ is_double (2451545 + / 16) /\ 2100000 <= 2451545 < 2451545 + / 16 /\ 2451545 + / 16 <= 3500000.
Proof.
  split; [replace 2451545 with (IZR 2451545 * B 0) by (cbn; lra); apply grid_double; lia|]. split; [replace (2451545 + / 16) with (IZR (2451545 * 16 + 1) * B (-4)) by (cbn; lra); apply grid_double; lia|]. lra.
Qed.
