(* C155: the moments of an exposure in double precision. *)
From Coq Require Import Reals ZArith Lra Lia List.
From Flocq Require Import Core Relative Plus_error.
From Verif Require Import Common Float32 JulianModel JulianProps ExposureModel.
Import ListNotations.
Open Scope R_scope.

#[local] Instance prec53' : Prec_gt_0 53. Proof. reflexivity. Qed.
Notation fexp := (FLT_exp (-1074) 53).
Notation B := (bpow radix2).
Lemma dbl_0 : dbl 0 = 0. Proof. apply dbl_id, generic_format_0. Qed.
Lemma dbl_pos x : 0 <= x -> 0 <= dbl x.
Proof. intros H. rewrite <- dbl_0. apply dbl_mono, H. Qed.
Lemma dbl_opp x : dbl (- x) = - dbl x.
Proof. unfold dbl. apply round_NE_opp. Qed.
(* every double is a multiple of the smallest one *)
Lemma finest x : is_double x -> exists m, x = IZR m * B (-1074).
Proof.
  intros F. apply FLT_format_generic in F; auto with typeclass_instances. destruct F as [[m ex] -> M E]. cbn [Fnum Fexp] in *. exists (m * 2 ^ (ex + 1074))%Z. unfold F2R. cbn [Fnum Fexp]. rewrite mult_IZR. change 2%Z with (radix_val radix2). rewrite IZR_Zpower by lia. rewrite Rmult_assoc, <- bpow_plus. do 2 f_equal. lia.
Qed.
Lemma half x : is_double x -> is_double (x / 2) \/ Rabs x < B (-1021).
Proof.
  intros F. apply FLT_format_generic in F; auto with typeclass_instances. destruct F as [[m ex] -> M E]. cbn [Fnum Fexp] in *. destruct (Z.eq_dec ex (-1074)) as [->|N].
  - right. unfold F2R. cbn [Fnum Fexp]. rewrite Rabs_mult, (Rabs_right (B _)) by (apply Rle_ge, bpow_ge_0). rewrite <- abs_IZR. replace (B (-1021)) with (B 53 * B (-1074)) by (rewrite <- bpow_plus; reflexivity). apply Rmult_lt_compat_r; [apply bpow_gt_0|]. change (B 53) with (IZR (2 ^ 53)). apply IZR_lt. exact M.
  - left. unfold F2R. cbn [Fnum Fexp]. replace (IZR m * B ex / 2) with (IZR m * B (ex - 1)). { apply grid_double; auto. lia. }
    unfold Z.sub. rewrite bpow_plus. change (B (- (1))) with (/ 2). field.
Qed.
Lemma half_up x : 0 <= x -> dbl x <= 2 * x.
Proof. intros H. pose proof (dbl_nearest x 0 (generic_format_0 _ _)) as N. unfold Rminus at 2 in N. rewrite Rplus_0_l, Rabs_Ropp, (Rabs_right x) in N by lra. apply Rabs_le_inv in N. lra. Qed.
Lemma half_gap s e : is_double s -> is_double e -> s <= e -> dbl (dbl (e - s) / 2) <= e - s.
Proof.
  intros S E L. destruct (half _ (dbl_double (e - s))) as [H|H].
  - rewrite (dbl_id _ H). pose proof (half_up (e - s)). lra.
  - assert (X : is_double (e - s)).
    { destruct (finest s S) as (a & ->), (finest e E) as (b & ->). replace (IZR b * B (-1074) - IZR a * B (-1074)) with (IZR (b - a) * B (-1074)) in * by (rewrite minus_IZR; ring). apply grid_double; [|lia].
      assert (G : IZR (b - a) * B (-1074) < B (-1021)). { destruct (Rlt_or_le (IZR (b - a) * B (-1074)) (B (-1021))) as [|G]; auto. exfalso. apply dbl_mono in G. rewrite (dbl_id (B (-1021))) in G by (apply generic_format_FLT_bpow; auto with typeclass_instances; lia). pose proof (Rle_abs (dbl (IZR (b - a) * B (-1074)))). lra. }
      replace (B (-1021)) with (B 53 * B (-1074)) in G by (rewrite <- bpow_plus; reflexivity). apply Rmult_lt_reg_r in G; [|apply bpow_gt_0]. change (B 53) with (IZR (2 ^ 53)) in G. apply lt_IZR in G.
      assert (P : 0 <= IZR (b - a) * B (-1074)) by (rewrite minus_IZR; lra). assert (Q : 0 <= IZR (b - a)). { apply Rmult_le_reg_r with (B (-1074)); [apply bpow_gt_0|]. rewrite Rmult_0_l. exact P. } apply le_IZR in Q. rewrite Z.abs_eq; auto. }
    rewrite (dbl_id _ X). rewrite <- (dbl_id _ X) at 2. apply dbl_mono. lra.
Qed.

(* the middle of an exposure is not before its start nor after its end *)
Theorem C155_center_inside : forall s e, is_double s -> is_double e -> s <= e -> s <= center (Exposure s e) <= e.
Proof.
  intros s e S E L. unfold center, time_add. cbn [e_start e_end]. assert (P : 0 <= dbl (dbl (e - s) / 2)) by (apply dbl_pos; pose proof (dbl_pos (e - s)); lra). pose proof (half_gap s e S E L) as U. split.
  - rewrite <- (dbl_id s S) at 1. apply dbl_mono. lra.
  - rewrite <- (dbl_id e E) at 2. apply dbl_mono. lra.
Qed.
(* an exposure has no duration only if it starts when it ends, and a negative one only if it ends before it starts *)
Theorem C155_duration_sign : forall s e, is_double s -> is_double e -> (duration (Exposure s e) = 0 <-> s = e) /\ (0 <= duration (Exposure s e) <-> s <= e).
Proof.
  intros s e S E. unfold duration. cbn [e_start e_end].
  assert (Z : dbl (e - s) = 0 -> s = e).
  { intros H. destruct (Req_dec (e + - s) 0) as [D|D]; [lra|]. exfalso. revert H. unfold dbl. replace (e - s) with (e + - s) by ring. apply round_plus_neq_0; auto with typeclass_instances. apply generic_format_opp, S. }
  split; [split; auto; intros ->; replace (e - e) with 0 by ring; apply dbl_0|]. split; [|intros L; apply dbl_pos; lra].
  intros P. destruct (Rle_or_lt s e) as [|L]; auto. assert (N : dbl (e - s) <= 0) by (rewrite <- dbl_0; apply dbl_mono; lra). assert (Q : dbl (e - s) = 0) by lra. rewrite (Z Q). lra.
Qed.
Lemma nth_samples s e n k l : samples (Exposure s e) n = Ok l -> (2 <= n)%nat -> (k < n)%nat -> nth k l 0 = dbl (s + dbl (dbl (INR k) * step (Exposure s e) n)).
Proof.
  intros H N K. destruct n as [|[|n]]; [lia|lia|]. cbn [samples] in H. remember (S (S n)) as m. injection H as <-. rewrite (nth_indep _ 0 (time_add s (dbl (dbl (INR 0) * step (Exposure s e) m)))) by (rewrite map_length, seq_length; lia).
  rewrite (map_nth (fun k => time_add s (dbl (dbl (INR k) * step (Exposure s e) m)))). rewrite seq_nth by lia. reflexivity.
Qed.
(* the samples of an exposure begin with its start and never go back in time *)
Lemma step_pos s e n : s <= e -> 0 <= step (Exposure s e) n.
Proof.
  intros L. unfold step, time_sub. cbn [e_start e_end]. apply dbl_pos. assert (P : 0 <= dbl (e - s)) by (apply dbl_pos; lra). assert (Q : 0 <= fl (INR (n - 1))). { rewrite <- (fl_id 0) by apply generic_format_0. apply fl_mono, pos_INR. }
  destruct Q as [Q| <-]; [apply Rmult_le_pos; auto; left; apply Rinv_0_lt_compat, Q|]. unfold Rdiv. rewrite Rinv_0. lra.
Qed.
Theorem C155_samples_order : forall s e n, is_double s -> s <= e -> (2 <= n)%nat -> exists l, samples (Exposure s e) n = Ok l /\ List.length l = n /\ hd 0 l = s /\
  forall j k, (j <= k < n)%nat -> s <= nth j l 0 <= nth k l 0.
Proof.
  intros s e n S L N. assert (E : exists l, samples (Exposure s e) n = Ok l /\ List.length l = n). { destruct n as [|[|n]]; [lia|lia|]. cbn [samples]. eexists. split; [reflexivity|]. rewrite map_length, seq_length. reflexivity. }
  destruct E as (l & E & LE). exists l. split; auto. split; auto. pose proof (step_pos s e n L) as SP. assert (H0 : nth 0 l 0 = s). { rewrite (nth_samples _ _ _ _ _ E) by lia. cbn [INR]. rewrite dbl_0, Rmult_0_l, dbl_0, Rplus_0_r. apply dbl_id, S. }
  assert (M : forall j k, (j <= k < n)%nat -> nth j l 0 <= nth k l 0).
  { intros j k K. rewrite !(nth_samples _ _ _ _ _ E) by lia. apply dbl_mono. apply Rplus_le_compat_l, dbl_mono, Rmult_le_compat_r; auto. apply dbl_mono, le_INR. lia. }
  split. { destruct l; [cbn in LE; lia|exact H0]. }
  intros j k K. split; [|apply M; lia]. rewrite <- H0 at 1. apply M. lia.
Qed.
(* an instant is sampled at that instant *)
Theorem C155_instant : forall t n l, is_double t -> samples (Exposure t t) n = Ok l -> forall x, In x l -> x = t.
Proof.
  intros t n l T H x I. assert (Z : step (Exposure t t) n = 0). { unfold step, time_sub. cbn [e_start e_end]. replace (t - t) with 0 by ring. rewrite dbl_0. unfold Rdiv. rewrite Rmult_0_l. apply dbl_0. }
  destruct n as [|[|n]]; cbn [samples] in H; [discriminate| |].
  - injection H as <-. destruct I as [<-|[]]. unfold center, time_add. cbn [e_start e_end]. replace (t - t) with 0 by ring. rewrite dbl_0. unfold Rdiv. rewrite Rmult_0_l, dbl_0, Rplus_0_r. apply dbl_id, T.
  - remember (S (S n)) as m. injection H as <-. apply in_map_iff in I as (k & <- & _). rewrite Z, Rmult_0_r, dbl_0. unfold time_add. cbn [e_start]. rewrite Rplus_0_r. apply dbl_id, T.
Qed.
(* an exposure asked for around a moment contains it, and its ends are where they were asked for to a quarter microsecond *)
Theorem C155_centered : forall c d, is_double c -> is_double d -> 0 <= d ->
  e_start (from_centered c d) <= c <= e_end (from_centered c d) /\
  (Rabs c <= 2 ^ 30 -> d <= 2 ^ 20 -> Rabs (e_start (from_centered c d) - (c - d / 2)) <= / 2 ^ 22 /\ Rabs (e_end (from_centered c d) - (c + d / 2)) <= / 2 ^ 22).
Proof.
  intros c d C D P. unfold from_centered, time_add. cbn [e_start e_end]. replace (- d / 2) with (- (d / 2)) by field. rewrite dbl_opp. assert (H : 0 <= dbl (d / 2)) by (apply dbl_pos; lra). split.
  - split; [rewrite <- (dbl_id c C) at 2|rewrite <- (dbl_id c C) at 1]; apply dbl_mono; lra.
  - intros BC BD. apply Rabs_le_inv in BC. replace (2 ^ 30) with 1073741824 in * by (cbn; lra). replace (2 ^ 20) with 1048576 in * by (cbn; lra).
    assert (E : Rabs (dbl (d / 2) - d / 2) <= B (-34)) by (apply (dbl_abs _ 20); [lia|]; cbn; apply Rabs_lt; lra). change (B (-34)) with (/ 17179869184) in E. apply Rabs_le_inv in E. set (h := dbl (d / 2)) in *.
    assert (E1 : Rabs (dbl (c + - h) - (c + - h)) <= B (-23)) by (apply (dbl_abs _ 31); [lia|]; cbn; apply Rabs_lt; lra). assert (E2 : Rabs (dbl (c + h) - (c + h)) <= B (-23)) by (apply (dbl_abs _ 31); [lia|]; cbn; apply Rabs_lt; lra).
    change (B (-23)) with (/ 8388608) in *. apply Rabs_le_inv in E1. apply Rabs_le_inv in E2. replace (/ 2 ^ 22) with (/ 4194304) by (f_equal; cbn; lra). split; apply Rabs_le; lra.
Qed.
(* the middle read back *)
Theorem C155_center_error : forall s e, Rabs s <= 2 ^ 30 -> Rabs (e - s) <= 2 ^ 20 -> Rabs (center (Exposure s e) - (s + e) / 2) <= / 2 ^ 22.
Proof.
  intros s e S D. unfold center, time_add. cbn [e_start e_end]. apply Rabs_le_inv in S. apply Rabs_le_inv in D. replace (2 ^ 30) with 1073741824 in * by (cbn; lra). replace (2 ^ 20) with 1048576 in * by (cbn; lra).
  assert (E : Rabs (dbl (e - s) - (e - s)) <= B (-33)) by (apply (dbl_abs _ 21); [lia|]; cbn; apply Rabs_lt; lra). change (B (-33)) with (/ 8589934592) in E. apply Rabs_le_inv in E. set (g := dbl (e - s)) in *.
  assert (E1 : Rabs (dbl (g / 2) - g / 2) <= B (-33)) by (apply (dbl_abs _ 21); [lia|]; cbn; apply Rabs_lt; lra). change (B (-33)) with (/ 8589934592) in E1. apply Rabs_le_inv in E1. set (h := dbl (g / 2)) in *.
  assert (E2 : Rabs (dbl (s + h) - (s + h)) <= B (-23)) by (apply (dbl_abs _ 31); [lia|]; cbn; apply Rabs_lt; lra). change (B (-23)) with (/ 8388608) in E2. apply Rabs_le_inv in E2. replace (/ 2 ^ 22) with (/ 4194304) by (f_equal; cbn; lra). apply Rabs_le. lra.
Qed.
Lemma dbl_both x : Rabs (dbl x - x) <= / 9007199254740992 * Rabs x + B (-1054).
Proof.
  destruct (Rlt_or_le (Rabs x) (B (-1000))) as [H|H].
  - pose proof (dbl_abs x (-1000) ltac:(lia) H) as E. change (-1000 - 54)%Z with (-1054)%Z in E. assert (P := Rabs_pos x). lra.
  - pose proof (relative_error_N_FLT radix2 (-1074) 53 eq_refl (fun t => negb (Z.even t)) x) as R. assert (Q : Rabs (dbl x - x) <= / 2 * B (- (53) + 1) * Rabs x). { apply R. eapply Rle_trans; [|exact H]. apply bpow_le. lia. }
    change (B (- (53) + 1)) with (/ 4503599627370496) in Q. pose proof (bpow_ge_0 radix2 (-1054)). replace (/ 9007199254740992) with (/ 2 * / 4503599627370496) by (field). lra.
Qed.
(* within 34 years of J2000 and for exposures below 12 days, the samples are where even spacing puts them to a quarter microsecond *)
Theorem C155_samples_even : forall s e n l, Rabs s <= 2 ^ 30 -> s <= e <= s + 2 ^ 20 -> (2 <= n)%nat -> (Z.of_nat n - 1 <= 2 ^ 24)%Z -> samples (Exposure s e) n = Ok l ->
  forall k, (k < n)%nat -> Rabs (nth k l 0 - (s + INR k / INR (n - 1) * (e - s))) <= / 2 ^ 22.
Proof.
  intros s e n l S D N BN L k K. rewrite (nth_samples _ _ _ _ _ L) by auto. unfold step, time_sub. cbn [e_start e_end].
  assert (FM : fl (INR (n - 1)) = INR (n - 1)). { rewrite INR_IZR_INZ. destruct (Z.eq_dec (Z.of_nat n - 1) (2 ^ 24)) as [Q|Q]; [|apply fl_id, float_int; lia]. replace (Z.of_nat (n - 1)) with (2 ^ 24)%Z by lia. apply fl_id. change (IZR (2 ^ 24)) with (B 24). apply generic_format_FLT_bpow; auto with typeclass_instances; lia. }
  assert (FK : dbl (INR k) = INR k). { rewrite INR_IZR_INZ. apply dbl_id. rewrite <- (Rmult_1_r (IZR _)). change 1 with (B 0). apply grid_double; lia. }
  rewrite FM, FK. clear FM FK L. set (m := INR (n - 1)). set (kk := INR k).
  assert (M1 : 1 <= m) by (unfold m; change 1 with (INR 1); apply le_INR; lia). assert (KM : 0 <= kk <= m) by (unfold kk, m; split; [apply pos_INR|apply le_INR; lia]). assert (M2 : m <= 16777216). { unfold m. rewrite INR_IZR_INZ. apply IZR_le. lia. } clearbody m kk.
  apply Rabs_le_inv in S. replace (2 ^ 30) with 1073741824 in * by (cbn; lra). replace (2 ^ 20) with 1048576 in * by (cbn; lra).
  assert (E : Rabs (dbl (e - s) - (e - s)) <= B (-33)) by (apply (dbl_abs _ 21); [lia|]; cbn; apply Rabs_lt; lra). change (B (-33)) with (/ 8589934592) in E. apply Rabs_le_inv in E.
  assert (GP : 0 <= dbl (e - s)) by (apply dbl_pos; lra). set (g := dbl (e - s)) in *. assert (IM : 0 < / m) by (apply Rinv_0_lt_compat; lra). assert (IM1 : / m * m = 1) by (field; lra).
  assert (E1 := dbl_both (g / m)). assert (XP : 0 <= g / m) by (apply Rmult_le_pos; lra). rewrite (Rabs_right (g / m)) in E1 by lra. set (dt := dbl (g / m)) in *.
  assert (TINY : B (-1054) <= / 1000000000000000000). { apply Rle_trans with (B (-60)); [apply bpow_le; lia|]. change (B (-60)) with (/ 1152921504606846976). apply Rinv_le; lra. }
  assert (E2 : Rabs (kk * dt - kk * (g / m)) <= / 4000000000). { replace (kk * dt - kk * (g / m)) with (kk * (dt - g / m)) by ring. rewrite Rabs_mult, (Rabs_right kk) by lra.
    apply Rle_trans with (m * (/ 9007199254740992 * (g / m) + B (-1054))). { apply Rmult_le_compat; [lra|apply Rabs_pos|lra|exact E1]. }
    rewrite Rmult_plus_distr_l. replace (m * (/ 9007199254740992 * (g / m))) with (/ 9007199254740992 * g) by (field; lra).
    assert (m * B (-1054) <= 16777216 * / 1000000000000000000) by (apply Rmult_le_compat; try lra; apply bpow_ge_0). lra. }
  apply Rabs_le_inv in E2. assert (Q : 0 <= kk / m <= 1). { split; [apply Rmult_le_pos; lra|]. apply Rmult_le_reg_r with m; [lra|]. unfold Rdiv. rewrite Rmult_assoc, IM1. lra. }
  replace (kk * (g / m)) with (kk / m * g) in E2 by (field; lra). assert (E3 : Rabs (kk / m * g - kk / m * (e - s)) <= / 8589934592). { replace (kk / m * g - kk / m * (e - s)) with (kk / m * (g - (e - s))) by ring. rewrite Rabs_mult, (Rabs_right (kk / m)) by lra. rewrite <- (Rmult_1_l (/ 8589934592)). apply Rmult_le_compat; [lra|apply Rabs_pos|lra|]. apply Rabs_le; lra. }
  apply Rabs_le_inv in E3. assert (RG : 0 <= kk / m * (e - s) <= 1048576) by (split; [apply Rmult_le_pos; lra|]; replace 1048576 with (1 * 1048576) by ring; apply Rmult_le_compat; lra). set (w := kk / m * (e - s)) in *.
  assert (E4 : Rabs (dbl (kk * dt) - kk * dt) <= B (-33)) by (apply (dbl_abs _ 21); [lia|]; cbn; apply Rabs_lt; lra). change (B (-33)) with (/ 8589934592) in E4. apply Rabs_le_inv in E4. set (p := dbl (kk * dt)) in *.
  assert (E5 : Rabs (dbl (s + p) - (s + p)) <= B (-23)) by (apply (dbl_abs _ 31); [lia|]; cbn; apply Rabs_lt; lra). change (B (-23)) with (/ 8388608) in E5. apply Rabs_le_inv in E5. replace (/ 2 ^ 22) with (/ 4194304) by (f_equal; cbn; lra). apply Rabs_le. lra.
Qed.
(* full statement: every sample lies in the exposure. Refuted: the last of 188 samples of the three seconds from J2000 on comes after the end *)
Theorem C155_refuted_inside : exists s e n l, is_double s /\ is_double e /\ s <= e /\ samples (Exposure s e) n = Ok l /\ e < last l 0.
Proof.
  assert (G : forall x m, Rabs (dbl x) >= B (-6) -> Rabs (dbl x) < B 3 -> Rabs (x - IZR m * B (-58)) < / 2 * B (-58) -> is_double (IZR m * B (-58)) -> dbl x = IZR m * B (-58)).
  { intros x m L _ H F. apply Rge_le in L. destruct (double_grid (dbl x) (-6) (dbl_double x) L) as (m' & E). change (-6 - 52)%Z with (-58)%Z in E. rewrite E. f_equal. f_equal. apply (grid_apart m' m (-58)).
    pose proof (dbl_nearest x _ F) as N. rewrite E in N. rewrite Rabs_minus_sym in H. apply Rabs_def2 in H. assert (N' : Rabs (IZR m' * B (-58) - x) < / 2 * B (-58)) by (eapply Rle_lt_trans; [exact N|]; apply Rabs_def1; lra). apply Rabs_def2 in N'. apply Rabs_def1; lra. }
  assert (F0 : is_double 0) by apply generic_format_0. assert (F3 : is_double 3). { replace 3 with (IZR 3 * B 0) by (cbn; ring). apply grid_double; lia. }
  exists 0, 3, 188%nat. destruct (C155_samples_order 0 3 188 F0 ltac:(lra) ltac:(lia)) as (l & E & LL & _). exists l. repeat split; auto; [lra|].
  assert (LA : last l 0 = nth 187 l 0). { clear - LL. rewrite (app_removelast_last 0 (l:=l)) at 2 by (destruct l; discriminate). assert (List.length (removelast l) = 187%nat). { rewrite (app_removelast_last 0 (l:=l)) in LL by (destruct l; discriminate). rewrite app_length in LL. cbn in LL. lia. } rewrite app_nth2 by lia. rewrite H, Nat.sub_diag. reflexivity. }
  rewrite LA, (nth_samples _ _ _ _ _ E) by lia. unfold step, time_sub. cbn [e_start e_end]. replace (3 - 0) with 3 by ring. rewrite (dbl_id 3 F3).
  assert (I : INR 187 = 187) by (rewrite INR_IZR_INZ; reflexivity). change (188 - 1)%nat with 187%nat. rewrite I. assert (F187 : is_double 187). { replace 187 with (IZR 187 * B 0) by (cbn; ring). apply grid_double; lia. } rewrite (dbl_id 187 F187). rewrite fl_id by (apply (float_int 187); lia).
  assert (DT : dbl (3 / 187) = IZR 4624016729706606 * B (-58)).
  { assert (LO : B (-6) <= dbl (3 / 187)). { rewrite <- (dbl_id (B (-6))) by (apply generic_format_FLT_bpow; auto with typeclass_instances; lia). apply dbl_mono. change (B (-6)) with (/ 64). lra. }
    pose proof (bpow_ge_0 radix2 (-6)) as B6. apply G; [rewrite Rabs_right; lra| | |apply grid_double; lia].
    - rewrite Rabs_right by (pose proof (bpow_ge_0 radix2 (-6)); lra). apply Rle_lt_trans with 3; [|change (B 3) with 8; lra]. apply Rle_trans with (dbl 3); [apply dbl_mono; lra|rewrite (dbl_id 3 F3); lra].
    - change (B (-58)) with (/ 288230376151711744). apply Rabs_def1; lra. }
  rewrite DT. change (B (-58)) with (/ 288230376151711744). set (x := 187 * (IZR 4624016729706606 * / 288230376151711744)).
  assert (FG : is_double (3 + / 2251799813685248)). { replace (3 + / 2251799813685248) with (IZR 6755399441055745 * B (-51)). - apply grid_double; lia. - change (B (-51)) with (/ 2251799813685248). lra. }
  assert (X : 3 < dbl x). { pose proof (dbl_nearest x _ FG) as N. assert (Q : Rabs (3 + / 2251799813685248 - x) < x - 3) by (unfold x; apply Rabs_def1; lra). assert (N' : Rabs (dbl x - x) < x - 3) by lra. apply Rabs_def2 in N'. lra. }
  rewrite Rplus_0_l. rewrite (dbl_id (dbl x)); auto. apply dbl_double.
Qed.
(* a case of the hypotheses: an exposure of one second that begins at J2000 *)
Example C155_case : is_double 0 /\ is_double 1 /\ center (Exposure 0 1) = / 2 /\ duration (from_start 0 1) = 1.
Proof.
  assert (F0 : is_double 0) by apply generic_format_0. assert (F1 : is_double 1) by (replace 1 with (IZR 1 * B 0) by (cbn; ring); apply grid_double; lia). assert (FH : is_double (/ 2)) by (replace (/ 2) with (IZR 1 * B (-1)) by (change (B (-1)) with (/ 2); ring); apply grid_double; lia).
  split; auto. split; auto. unfold center, duration, from_start, time_add. cbn [e_start e_end]. rewrite !Rplus_0_l. unfold Rminus. rewrite Ropp_0, !Rplus_0_r, !(dbl_id 1) by auto. replace (1 / 2) with (/ 2) by field. rewrite !(dbl_id (/ 2)) by auto. auto.
Qed.
Print Assumptions C155_center_inside. Print Assumptions C155_duration_sign. Print Assumptions C155_samples_order. Print Assumptions C155_instant. Print Assumptions C155_centered. Print Assumptions C155_center_error. Print Assumptions C155_samples_even. Print Assumptions C155_refuted_inside.
(* an exposure from a moment on starts then, does not end before, and ends where it was asked to *)
Theorem C155_from_start : forall t d, is_double t -> e_start (from_start t d) = t /\ (0 <= d -> t <= e_end (from_start t d)) /\
  (Rabs t <= 2 ^ 30 -> Rabs d <= 2 ^ 20 -> Rabs (e_end (from_start t d) - (t + d)) <= / 2 ^ 22).
Proof.
  intros t d T. unfold from_start, time_add. cbn [e_start e_end]. split; auto. split.
  - intros P. rewrite <- (dbl_id t T) at 1. apply dbl_mono. lra.
  - intros BT BD. apply Rabs_le_inv in BT. apply Rabs_le_inv in BD. replace (2 ^ 30) with 1073741824 in * by (cbn; lra). replace (2 ^ 20) with 1048576 in * by (cbn; lra).
    assert (E : Rabs (dbl (t + d) - (t + d)) <= B (-23)) by (apply (dbl_abs _ 31); [lia|]; cbn; apply Rabs_lt; lra). change (B (-23)) with (/ 8388608) in E. replace (/ 2 ^ 22) with (/ 4194304) by (f_equal; cbn; lra). lra.
Qed.
Print Assumptions C155_from_start.
(* as many samples as asked for; none cannot be asked for *)
Theorem C155_count : forall i n, (n = 0%nat /\ samples i n = Throws) \/ exists l, samples i n = Ok l /\ List.length l = n /\ (0 < n)%nat.
Proof.
  intros i [|[|n]]; [left; auto|right; eexists; split; [reflexivity|split; [reflexivity|lia]]|right]. cbn [samples]. eexists. split; [reflexivity|]. rewrite map_length, seq_length. split; [reflexivity|lia].
Qed.
Print Assumptions C155_count.
