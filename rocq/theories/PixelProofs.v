(* Lemmas for PixelProps. *)
From Verif Require Import Common Float32 PixelModel.
From Coq Require Import Reals Psatz.
From Flocq Require Import Core.
Open Scope R_scope.

Lemma float_le24 v : (Z.abs v < 2 ^ 24)%Z -> fl (IZR v) = IZR v.
Proof. intros. apply fl_id, float_int; auto. Qed.
Lemma fl_clamp01 x : is_float x -> 0 <= x <= 1 -> clampR (fl (fl (x - 0) / fl (1 - 0))) 0 1 = x.
Proof.
  intros F B. rewrite Rminus_0_r. rewrite (fl_id x F). rewrite Rminus_0_r, fl_1. unfold Rdiv. rewrite Rinv_1, Rmult_1_r. rewrite (fl_id x F).
  unfold clampR. destruct (Rlt_dec x 0); [lra|]. destruct (Rlt_dec 1 x); lra.
Qed.
(* the normalised value: within relative 2^-24 of v/M, in [0,1], a float *)
Lemma norm_ok a M : (0 <= a <= M)%Z -> (0 < M < 2 ^ 24)%Z ->
  let n := fl (IZR a / IZR M) in is_float n /\ 0 <= n <= 1 /\ Rabs (n * IZR M - IZR a) <= / 2 ^ 24 * IZR a.
Proof.
  intros A M0 n. assert (MP : 0 < IZR M) by (apply IZR_lt; lia). assert (AP : 0 <= IZR a <= IZR M) by (split; apply IZR_le; lia).
  assert (Q : 0 <= IZR a / IZR M <= 1).
  { split; [apply Rmult_le_pos; [lra|]; apply Rlt_le, Rinv_0_lt_compat; auto|]. apply (Rmult_le_reg_r (IZR M)); auto. unfold Rdiv. rewrite Rmult_assoc, Rinv_l by lra. lra. }
  split; [apply fl_is_float|]. split.
  - unfold n. split; [rewrite <- fl_0; apply fl_mono; lra|]. apply Rle_trans with (fl 1); [apply fl_mono; lra|rewrite fl_1; lra].
  - destruct (Z.eq_dec a 0) as [->|N].
    + unfold n. replace (0 / IZR M) with 0 by (unfold Rdiv; ring). rewrite fl_0. replace (0 * IZR M - 0) with 0 by ring. rewrite Rabs_R0. lra.
    + assert (A1 : 1 <= IZR a) by (apply IZR_le; lia).
      assert (L : / 2 ^ 126 <= Rabs (IZR a / IZR M)).
      { rewrite Rabs_pos_eq by lra. apply (Rmult_le_reg_r (IZR M)); auto. unfold Rdiv. rewrite Rmult_assoc, Rinv_l by lra.
        assert (IZR M <= 2 ^ 24) by (replace (2 ^ 24) with (IZR (2 ^ 24)) by (cbn; lra); apply IZR_le; lia).
        assert (/ 2 ^ 126 * 2 ^ 24 <= 1) by lra. assert (0 < / 2 ^ 126) by lra. nra. }
      apply fl_rel in L. fold n in L. rewrite (Rabs_pos_eq (IZR a / IZR M)) in L by lra.
      replace (n * IZR M - IZR a) with ((n - IZR a / IZR M) * IZR M) by (unfold Rdiv; rewrite Rmult_minus_distr_r, Rmult_assoc, Rinv_l by lra; ring).
      rewrite Rabs_mult, (Rabs_pos_eq (IZR M)) by lra.
      replace (/ 2 ^ 24 * IZR a) with (/ 2 ^ 24 * (IZR a / IZR M) * IZR M) by (unfold Rdiv; rewrite !Rmult_assoc, Rinv_l by lra; ring).
      apply Rmult_le_compat_r; lra.
Qed.
(* scaling back: within 1/64 of a *)
Lemma scale_ok a M : (0 <= a <= M)%Z -> (0 < M < 2 ^ 16)%Z -> let n := fl (IZR a / IZR M) in Rabs (fl (n * IZR M) - IZR a) <= / 64.
Proof.
  intros A M0 n. destruct (norm_ok a M A ltac:(lia)) as (F & B & E). fold n in F, B, E.
  assert (AM : 0 <= IZR a <= 65536) by (split; apply IZR_le; lia).
  assert (MM : 0 <= IZR M <= 65536) by (split; apply IZR_le; lia).
  assert (C : Rabs (fl (n * IZR M) - n * IZR M) <= / 2 ^ 23 * 65536).
  { apply fl_close; [|lra]. rewrite Rabs_pos_eq by (apply Rmult_le_pos; lra). nra. }
  replace (fl (n * IZR M) - IZR a) with ((fl (n * IZR M) - n * IZR M) + (n * IZR M - IZR a)) by ring.
  eapply Rle_trans; [apply Rabs_triang|]. lra.
Qed.
Lemma float_quarter z k : (Z.abs z < 2 ^ 20)%Z -> (0 <= k < 4)%Z -> is_float (IZR z + IZR k / 4).
Proof.
  intros Z0 K. apply (float_frac (4 * z + k) 2); [lia|lia|]. change (IZR (2 ^ 2)) with 4. rewrite plus_IZR, mult_IZR. field.
Qed.
Lemma add_half x z : (Z.abs z < 2 ^ 19)%Z -> Rabs (x - IZR z) <= / 64 -> IZR z + 1 / 4 <= fl (x + 1 / 2) <= IZR z + 3 / 4.
Proof.
  intros Z0 B. apply Rabs_le_inv in B. split.
  - rewrite <- (fl_id (IZR z + 1 / 4)) by (apply (float_quarter z 1); lia). apply fl_mono. lra.
  - rewrite <- (fl_id (IZR z + 3 / 4)) by (apply (float_quarter z 3); lia). apply fl_mono. lra.
Qed.
Lemma trunc_pos x z : (0 <= z)%Z -> IZR z <= x < IZR z + 1 -> Ztrunc x = z.
Proof. intros Z0 B. rewrite Ztrunc_floor by (assert (0 <= IZR z) by (apply IZR_le; lia); lra). apply Zfloor_imp. rewrite plus_IZR. lra. Qed.
Lemma trunc_neg x z : (z < 0)%Z -> IZR z < x <= IZR z + 1 -> Ztrunc x = (z + 1)%Z.
Proof.
  intros Z0 B. assert (IZR (z + 1) <= 0) by (apply IZR_le; lia). rewrite plus_IZR in H.
  rewrite Ztrunc_ceil by lra. apply Zceil_imp. rewrite minus_IZR, plus_IZR. lra.
Qed.
Lemma uint_back a M : (0 <= a <= M)%Z -> (0 < M < 2 ^ 16)%Z -> float_to_uint M (uint_to_float M a 0 1) 0 1 = Ok a.
Proof.
  intros A M0. unfold uint_to_float. rewrite !float_le24 by lia. rewrite Rminus_0_r, fl_1. rewrite Rmult_1_r, Rplus_0_l.
  destruct (norm_ok a M A ltac:(lia)) as (F & B & _). rewrite !(fl_id (fl (IZR a / IZR M))) by auto.
  unfold float_to_uint. rewrite fl_clamp01 by auto. rewrite float_le24 by lia. unfold cast_int.
  pose proof (add_half _ a ltac:(lia) (scale_ok a M A M0)) as H. cbv zeta in H. rewrite (trunc_pos _ a) by (lia || lra).
  replace (0 <=? a)%Z with true by lia. replace (a <=? M)%Z with true by lia. reflexivity.
Qed.
Lemma sint_back m M v : (m <= v <= M)%Z -> (m < M)%Z -> (M - m < 2 ^ 16)%Z -> (- 2 ^ 16 < m < 2 ^ 16)%Z -> (- 2 ^ 16 < M < 2 ^ 16)%Z ->
  float_to_sint m M (sint_to_float m M v 0 1) 0 1 = cast_int m M (IZR (if v <? 0 then v + 1 else v)%Z).
Proof.
  intros V ML R0 Bm BM. unfold sint_to_float. rewrite !Rminus_0_r, fl_1. rewrite !float_le24 by lia. rewrite <- !minus_IZR, !float_le24 by lia. rewrite Rmult_1_r, Rplus_0_l.
  assert (A : (0 <= v - m <= M - m)%Z) by lia. assert (M0 : (0 < M - m < 2 ^ 16)%Z) by lia.
  destruct (norm_ok (v - m) (M - m) A ltac:(lia)) as (F & B & _). rewrite !(fl_id (fl (IZR (v - m) / IZR (M - m)))) by auto.
  unfold float_to_sint. rewrite fl_clamp01 by auto. rewrite !float_le24 by lia. rewrite <- !minus_IZR, !float_le24 by lia.
  pose proof (scale_ok (v - m) (M - m) A M0) as H. cbv zeta in H. set (s := fl (fl (IZR (v - m) / IZR (M - m)) * IZR (M - m))) in *.
  assert (S : Rabs (fl (IZR m + s) - IZR v) <= / 32).
  { apply Rabs_le_inv in H. rewrite minus_IZR in H. apply Rabs_le. split.
    - assert (IZR v - / 32 <= fl (IZR m + s)); [|lra].
      rewrite <- (fl_id (IZR v - / 32)); [apply fl_mono; lra|]. apply (float_frac (32 * v - 1) 5); [lia|lia|]. change (IZR (2 ^ 5)) with 32. rewrite minus_IZR, mult_IZR. field.
    - assert (fl (IZR m + s) <= IZR v + / 32); [|lra].
      rewrite <- (fl_id (IZR v + / 32)); [apply fl_mono; lra|]. apply (float_frac (32 * v + 1) 5); [lia|lia|]. change (IZR (2 ^ 5)) with 32. rewrite plus_IZR, mult_IZR. field. }
  assert (T : IZR v + 1 / 4 <= fl (fl (IZR m + s) + 1 / 2) <= IZR v + 3 / 4).
  { apply Rabs_le_inv in S. split.
    - rewrite <- (fl_id (IZR v + 1 / 4)) by (apply (float_quarter v 1); lia). apply fl_mono. lra.
    - rewrite <- (fl_id (IZR v + 3 / 4)) by (apply (float_quarter v 3); lia). apply fl_mono. lra. }
  unfold cast_int. rewrite Ztrunc_IZR. destruct (Z.ltb_spec v 0) as [N|N].
  - rewrite (trunc_neg _ v) by (auto; lra). reflexivity.
  - rewrite (trunc_pos _ v) by (auto; lra). reflexivity.
Qed.
(** monotone and saturating *)
Lemma clamp_mono x y : x <= y -> clampR x 0 1 <= clampR y 0 1.
Proof. intros. unfold clampR. destruct (Rlt_dec x 0), (Rlt_dec 1 x), (Rlt_dec y 0), (Rlt_dec 1 y); lra. Qed.
Lemma clamp_range x : 0 <= clampR x 0 1 <= 1.
Proof. unfold clampR. destruct (Rlt_dec x 0), (Rlt_dec 1 x); lra. Qed.
Definition out_uint (M : Z) (x : R) : R := fl (fl (clampR (fl (fl (x - 0) / fl (1 - 0))) 0 1 * fl (IZR M)) + 1 / 2).
Lemma out_mono M x y : (0 <= M)%Z -> x <= y -> out_uint M x <= out_uint M y.
Proof.
  intros M0 H. unfold out_uint. apply fl_mono. apply Rplus_le_compat_r. apply fl_mono. apply Rmult_le_compat_r.
  - rewrite <- fl_0. apply fl_mono. apply IZR_le. lia.
  - apply clamp_mono. apply fl_mono. rewrite !Rminus_0_r, fl_1. unfold Rdiv. rewrite Rinv_1, !Rmult_1_r. apply fl_mono. lra.
Qed.
Lemma out_range M x : (0 < M < 2 ^ 16)%Z -> 1 / 2 <= out_uint M x <= IZR M + 1 / 2.
Proof.
  intros M0. unfold out_uint. rewrite float_le24 by lia. assert (0 < IZR M) by (apply IZR_lt; lia). set (c := clampR _ 0 1). pose proof (clamp_range (fl (fl (x - 0) / fl (1 - 0)))) as C. fold c in C.
  assert (A : 0 <= fl (c * IZR M) <= IZR M).
  { split; [rewrite <- fl_0; apply fl_mono; nra|]. apply Rle_trans with (fl (IZR M)); [apply fl_mono; nra|rewrite float_le24 by lia; lra]. }
  split.
  - apply Rle_trans with (fl (1 / 2)); [rewrite fl_id; [lra|]; apply (float_frac 1 1); [lia|lia|cbn; lra]|apply fl_mono; lra].
  - rewrite <- (fl_id (IZR M + 1 / 2)); [apply fl_mono; lra|]. replace (1 / 2) with (2 / 4) by lra. apply (float_quarter M 2); lia.
Qed.
Lemma uint_total M x : (0 < M < 2 ^ 16)%Z -> exists v, float_to_uint M x 0 1 = Ok v /\ (0 <= v <= M)%Z /\ v = Ztrunc (out_uint M x).
Proof.
  intros M0. pose proof (out_range M x M0) as R. exists (Ztrunc (out_uint M x)). unfold float_to_uint, cast_int. fold (out_uint M x).
  assert (0 <= Ztrunc (out_uint M x) <= M)%Z.
  { split.
    - rewrite <- (Ztrunc_IZR 0). apply Ztrunc_le. lra.
    - assert (Ztrunc (out_uint M x) < M + 1)%Z; [|lia]. apply lt_IZR. rewrite plus_IZR. pose proof (Zfloor_lb (out_uint M x)). rewrite Ztrunc_floor by lra. lra. }
  replace (0 <=? Ztrunc (out_uint M x))%Z with true by lia. replace (Ztrunc (out_uint M x) <=? M)%Z with true by lia. auto.
Qed.

(** FITS loops *)
From Verif Require Import DecodeModel DecodeSpec DecodeProofs.
Lemma scatter {A} (w h : Z) (p : Z -> Z -> Z) (E : Z -> Z -> A) body (out0 : array A) : (0 <= w)%Z -> (0 <= h)%Z ->
  (forall y x y' x', 0 <= y < h -> 0 <= x < w -> 0 <= y' < h -> 0 <= x' < w -> p y x = p y' x' -> y = y' /\ x = x')%Z ->
  (forall y x out, 0 <= y < h -> 0 <= x < w -> asz out = asz out0 -> exists v, v = E y x /\ body y x out = wr out (p y x) v /\ 0 <= p y x < asz out0)%Z ->
  trip Total (fun out => asz out = asz out0 /\ forall y x, (0 <= y < h -> 0 <= x < w -> aget out (p y x) = E y x)%Z)
    (for_ (Z.to_nat h) (fun y => for_ (Z.to_nat w) (body y)) out0).
Proof.
  intros W H INJ BODY.
  assert (T : trip Total (fun out => asz out = asz out0 /\ forall y x, (0 <= y < Z.of_nat (Z.to_nat h) -> 0 <= x < w -> aget out (p y x) = E y x)%Z)
    (for_ (Z.to_nat h) (fun y => for_ (Z.to_nat w) (body y)) out0)).
  { apply (trip_for Total (fun k out => asz out = asz out0 /\ forall y x, (0 <= y < k -> 0 <= x < w -> aget out (p y x) = E y x)%Z)).
    - split; auto. intros; lia.
    - intros y out Hy (S & F).
      assert (T : trip Total (fun o => asz o = asz out0 /\ (forall x, 0 <= x < Z.of_nat (Z.to_nat w) -> aget o (p y x) = E y x)%Z
          /\ (forall y' x, 0 <= y' < h -> y' <> y -> 0 <= x < w -> aget o (p y' x) = aget out (p y' x))%Z) (for_ (Z.to_nat w) (body y) out)).
      { apply (trip_for Total (fun k o => asz o = asz out0 /\ (forall x, 0 <= x < k -> aget o (p y x) = E y x)%Z
          /\ (forall y' x, 0 <= y' < h -> y' <> y -> 0 <= x < w -> aget o (p y' x) = aget out (p y' x))%Z)).
        - split; auto. split; auto. intros; lia.
        - intros x o Hx (So & Fo & Go). destruct (BODY y x o ltac:(lia) ltac:(lia) So) as (v & -> & -> & R). rewrite wr_ok by lia. cbn [trip asz aget]. split; [auto|]. split.
          + intros x' Hx'. destruct (Z.eqb_spec (p y x') (p y x)) as [EQ|NQ]; [apply INJ in EQ; try lia; destruct EQ as (_ & ->); auto|]. apply Fo.
            assert (x' <> x) by (intros ->; congruence). lia.
          + intros y' x' Hy' N Hx'. destruct (Z.eqb_spec (p y' x') (p y x)) as [EQ|NQ]; [apply INJ in EQ; lia|]. auto. }
      rewrite Z2Nat.id in T by auto. eapply trip_conseq; [exact T|]. cbv beta. intros o (So & Fo & Go). split; auto.
      intros y' x Hy' Hx. destruct (Z.eq_dec y' y) as [->|N]; auto. rewrite Go by (auto; lia). apply F; lia. }
  rewrite Z2Nat.id in T by auto. exact T.
Qed.
Lemma grid_inj w a b x x' : (0 <= x < w -> 0 <= x' < w -> a * w + x = b * w + x' -> a = b /\ x = x')%Z.
Proof. intros X X' E. assert (a = b) by nia. subst; split; [auto|lia]. Qed.
Lemma grid_bound w h y x : (0 <= x < w -> 0 <= y < h -> 0 <= y * w + x < w * h)%Z.
Proof. intros. split; [nia|]. assert ((y + 1) * w <= h * w)%Z by (apply Z.mul_le_mono_nonneg_r; lia). lia. Qed.
Lemma write_buffer_ok bits depth w h img : (0 <= w)%Z -> (0 <= h)%Z -> asz img = (w * h)%Z ->
  trip Total (fun b => asz b = (w * h)%Z /\ forall y x, (0 <= y < h -> 0 <= x < w -> aget b ((h - 1 - y) * w + x) = write_value bits depth (aget img (y * w + x)))%Z)
    (write_buffer bits depth w h img).
Proof.
  intros W H S. unfold write_buffer. apply (scatter w h (fun y x => (h - 1 - y) * w + x)%Z (fun y x => write_value bits depth (aget img (y * w + x)%Z))
    (fun y x buf => px <- rd img (y * w + x)%Z ;; wr buf ((h - 1 - y) * w + x)%Z (write_value bits depth px))); auto.
  - intros y x y' x' Hy Hx Hy' Hx' E. apply grid_inj in E; auto. lia.
  - intros y x out Hy Hx So. cbn [asz] in *. pose proof (grid_bound w h y x Hx Hy). pose proof (grid_bound w h (h - 1 - y) x Hx ltac:(lia)).
    rewrite rd_ok by lia. cbn [obind]. eexists. split; [reflexivity|]. split; [reflexivity|lia].
Qed.
Lemma read_buffer_ok sat depth w h buf : (0 <= w)%Z -> (0 <= h)%Z -> asz buf = (w * h)%Z ->
  trip Total (fun b => asz b = (w * h)%Z /\ forall y x, (0 <= y < h -> 0 <= x < w -> aget b (y * w + x) = read_value sat depth (aget buf ((h - 1 - y) * w + x)))%Z)
    (read_buffer sat depth w h buf).
Proof.
  intros W H S. unfold read_buffer. apply (scatter w h (fun y x => y * w + x)%Z (fun y x => read_value sat depth (aget buf ((h - 1 - y) * w + x)%Z))
    (fun y x img => v <- rd buf ((h - 1 - y) * w + x)%Z ;; wr img (y * w + x)%Z (read_value sat depth v))); auto.
  - intros y x y' x' Hy Hx Hy' Hx' E. apply grid_inj in E; auto.
  - intros y x out Hy Hx So. cbn [asz] in *. pose proof (grid_bound w h y x Hx Hy). pose proof (grid_bound w h (h - 1 - y) x Hx ltac:(lia)).
    rewrite rd_ok by lia. cbn [obind]. eexists. split; [reflexivity|]. split; [reflexivity|lia].
Qed.
Lemma round_trip_ok bits depth w h meta disk img : (0 <= w)%Z -> (0 <= h)%Z -> asz img = (w * h)%Z ->
  exists out, fits_round_trip bits depth w h meta disk img = Ok out /\ asz out = (w * h)%Z /\
    forall y x, (0 <= y < h -> 0 <= x < w -> aget out (y * w + x) = read_value (written_saturate bits depth meta) depth (disk (write_value bits depth (aget img (y * w + x)))))%Z.
Proof.
  intros W H S. pose proof (write_buffer_ok bits depth w h img W H S) as T. unfold fits_round_trip.
  destruct (write_buffer bits depth w h img) as [b| |]; cbn in T; try congruence. destruct T as (Sb & Fb). cbn [obind].
  pose proof (read_buffer_ok (written_saturate bits depth meta) depth w h (Arr (asz b) (fun i => disk (aget b i))) W H Sb) as T.
  destruct (read_buffer _ _ _ _ _) as [o| |]; cbn in T; try congruence. destruct T as (So & Fo). exists o. split; auto. split; auto.
  intros y x Hy Hx. rewrite Fo by auto. cbn [aget]. rewrite Fb by auto. reflexivity.
Qed.
