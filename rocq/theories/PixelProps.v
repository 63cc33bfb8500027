(* Theorems about integer pixel conversion (C46) and FITS pixels (C47, C72). *)
From Verif Require Import Common Float32 DecodeModel PixelModel PixelProofs.
From Coq Require Import Reals Psatz.
From Flocq Require Import Core.
Open Scope R_scope.

(** C46 *)
(* 8 and 16-bit unsigned pixels come back unchanged, with every operation rounded to binary32 *)
Theorem C46_unsigned_round_trip M v : (M = 255 \/ M = 65535)%Z -> (0 <= v <= M)%Z -> float_to_uint M (uint_to_float M v 0 1) 0 1 = Ok v.
Proof. intros HM V. apply uint_back; lia. Qed.
(* every finite float converts to a value of the type; larger floats to no smaller values; the ends saturate *)
Theorem C46_unsigned_monotone_saturating M : (M = 255 \/ M = 65535)%Z ->
  (forall x, exists v, float_to_uint M x 0 1 = Ok v /\ (0 <= v <= M)%Z)
  /\ (forall x y v v', x <= y -> float_to_uint M x 0 1 = Ok v -> float_to_uint M y 0 1 = Ok v' -> (v <= v')%Z)
  /\ (forall x, is_float x -> x <= 0 -> float_to_uint M x 0 1 = Ok 0%Z) /\ (forall x, is_float x -> 1 <= x -> float_to_uint M x 0 1 = Ok M).
Proof.
  intros HM. assert (M0 : (0 < M < 2 ^ 16)%Z) by lia. split; [|split; [|split]].
  - intros x. destruct (uint_total M x M0) as (v & E & B & _). eauto.
  - intros x y v v' H E E'. destruct (uint_total M x M0) as (a & A & _ & ->). destruct (uint_total M y M0) as (b & B & _ & ->).
    rewrite A in E. rewrite B in E'. injection E as <-. injection E' as <-. apply Ztrunc_le. apply out_mono; auto. lia.
  - intros x F X. pose proof (C46_unsigned_round_trip M 0 HM ltac:(lia)) as T. rewrite <- T. clear T. unfold float_to_uint, uint_to_float.
    rewrite !Rminus_0_r, !fl_1, !float_le24 by lia. unfold Rdiv. rewrite Rinv_1, !Rmult_0_l, fl_0, !Rmult_0_l, !Rmult_1_r, !Rplus_0_l, !fl_0. rewrite (fl_id x), (fl_id x) by auto.
    f_equal. f_equal. f_equal. f_equal. f_equal. unfold clampR. destruct (Rlt_dec x 0), (Rlt_dec 1 x), (Rlt_dec 0 0), (Rlt_dec 1 0); lra.
  - intros x F X. pose proof (C46_unsigned_round_trip M M HM ltac:(lia)) as T. rewrite <- T. clear T. unfold float_to_uint, uint_to_float.
    assert (0 < IZR M) by (apply IZR_lt; lia).
    rewrite !Rminus_0_r, !fl_1, !float_le24 by lia. unfold Rdiv. rewrite Rinv_1, Rinv_r by lra. rewrite ?fl_1, ?Rmult_1_r, ?Rplus_0_l, ?Rmult_1_r, ?fl_1, ?(fl_id x), ?fl_1 by auto. rewrite ?Rmult_1_r, ?fl_1, ?Rplus_0_l, ?fl_1, ?(fl_id x) by auto.
    f_equal. f_equal. f_equal. f_equal. f_equal. unfold clampR. destruct (Rlt_dec x 0), (Rlt_dec 1 x), (Rlt_dec 1 0), (Rlt_dec 1 1); lra.
Qed.
(* Signed types: only the non-negative values survive *)
Theorem C46_signed_round_trip_partial M v : (M = 127 \/ M = 32767)%Z -> (0 <= v <= M)%Z -> float_to_sint (- M - 1) M (sint_to_float (- M - 1) M v 0 1) 0 1 = Ok v.
Proof.
  intros HM V. rewrite sint_back by lia. replace (v <? 0)%Z with false by lia. unfold cast_int. rewrite Ztrunc_IZR.
  replace (- M - 1 <=? v)%Z with true by lia. replace (v <=? M)%Z with true by lia. reflexivity.
Qed.
(* the full claim is false: every negative value comes back one too large *)
Theorem C46_refuted_signed M v : (M = 127 \/ M = 32767)%Z -> (- M - 1 <= v < 0)%Z -> float_to_sint (- M - 1) M (sint_to_float (- M - 1) M v 0 1) 0 1 = Ok (v + 1)%Z.
Proof.
  intros HM V. rewrite sint_back by lia. replace (v <? 0)%Z with true by lia. unfold cast_int. rewrite Ztrunc_IZR.
  replace (- M - 1 <=? v + 1)%Z with true by lia. replace (v + 1 <=? M)%Z with true by lia. reflexivity.
Qed.
(* 32-bit unsigned: white is cast out of range *)
Lemma fl_u32max : fl (IZR (2 ^ 32 - 1)) = IZR (2 ^ 32).
Proof.
  unfold fl, round, scaled_mantissa, cexp. rewrite (mag_unique radix2 (IZR (2 ^ 32 - 1)) 32).
  2:{ rewrite Rabs_pos_eq by (apply IZR_le; lia). change (bpow radix2 (32 - 1)) with (IZR (2 ^ 31)). change (bpow radix2 32) with (IZR (2 ^ 32)). split; [apply IZR_le|apply IZR_lt]; lia. }
  change (FLT_exp (-149) 24 32) with 8%Z. unfold F2R. cbn [Fnum Fexp]. change (bpow radix2 8) with 256. change (bpow radix2 (- (8))) with (/ 256).
  assert (ZnearestE (IZR (2 ^ 32 - 1) * / 256) = 16777216%Z) as ->; [|change (2 ^ 32)%Z with 4294967296%Z; lra].
  unfold Znearest.
  assert (F : Zfloor (IZR (2 ^ 32 - 1) * / 256) = 16777215%Z) by (apply Zfloor_imp; change (2 ^ 32 - 1)%Z with 4294967295%Z; split; cbn; lra).
  assert (C : Zceil (IZR (2 ^ 32 - 1) * / 256) = 16777216%Z) by (apply Zceil_imp; change (2 ^ 32 - 1)%Z with 4294967295%Z; split; cbn; lra).
  rewrite F, C. rewrite Rcompare_Gt; [reflexivity|]. change (2 ^ 32 - 1)%Z with 4294967295%Z. lra.
Qed.
Theorem C46_refuted_uint32 : float_to_uint (2 ^ 32 - 1) 1 0 1 = UB.
Proof.
  unfold float_to_uint. rewrite fl_clamp01; [|apply (float_int 1); lia|lra]. rewrite fl_u32max, Rmult_1_l.
  assert (E1 : fl (IZR (2 ^ 32)) = IZR (2 ^ 32)).
  { apply fl_id. replace (IZR (2 ^ 32)) with (IZR 1 * bpow radix2 32) by (cbn; lra). apply float_small; lia. }
  rewrite E1. unfold cast_int.
  assert (L : IZR (2 ^ 32) <= fl (IZR (2 ^ 32) + 1 / 2)) by (rewrite <- E1 at 1; apply fl_mono; lra).
  assert (T : (2 ^ 32 <= Ztrunc (fl (IZR (2 ^ 32) + 1 / 2)))%Z) by (rewrite <- (Ztrunc_IZR (2 ^ 32)) at 1; apply Ztrunc_le; auto).
  replace (Ztrunc (fl (IZR (2 ^ 32) + 1 / 2)) <=? 2 ^ 32 - 1)%Z with false by lia. rewrite andb_false_r. reflexivity.
Qed.
Example C46_nonvacuous : float_to_uint 255 (uint_to_float 255 7 0 1) 0 1 = Ok 7%Z /\ float_to_sint (-128) 127 (sint_to_float (-128) 127 (-5) 0 1) 0 1 = Ok (-4)%Z.
Proof. split; [apply C46_unsigned_round_trip|apply (C46_refuted_signed 127)]; lia. Qed.

(** C47 *)
(* Row y of the image is row h - 1 - y of the file: FITS counts rows from the bottom *)
Theorem C47_file_order bits depth w h img : (0 <= w)%Z -> (0 <= h)%Z -> asz img = (w * h)%Z ->
  exists buf, write_buffer bits depth w h img = Ok buf /\ asz buf = (w * h)%Z /\
    forall x y, (0 <= x < w)%Z -> (0 <= y < h)%Z -> aget buf ((h - 1 - y) * w + x) = write_value bits depth (aget img (y * w + x)).
Proof.
  intros W H S. pose proof (write_buffer_ok bits depth w h img W H S) as T. destruct (write_buffer bits depth w h img); cbn in T; try congruence.
  destruct T as (A & B). exists a. auto.
Qed.
(* Floating point formats: writing and reading gives back every finite pixel at its place and keeps the others non-finite *)
Theorem C47_float_round_trip bits depth w h meta img : (depth = -32 \/ depth = -64)%Z -> (0 <= w)%Z -> (0 <= h)%Z -> asz img = (w * h)%Z ->
  exists out, fits_round_trip bits depth w h meta (fun v => v) img = Ok out /\ asz out = (w * h)%Z /\
    forall x y, (0 <= x < w)%Z -> (0 <= y < h)%Z -> aget out (y * w + x)%Z = aget img (y * w + x)%Z.
Proof.
  intros D W H S. destruct (round_trip_ok bits depth w h meta (fun v => v) img W H S) as (o & E & So & F). exists o. split; auto. split; auto.
  intros x y Hx Hy. rewrite F by auto. unfold write_value, read_value. replace (0 <? depth)%Z with false by lia. destruct (aget img _); reflexivity.
Qed.
(* Any format, any conversion on disk: a pixel read back depends only on the pixel written at the same place *)
Theorem C47_upright bits depth w h meta disk : (0 <= w)%Z -> (0 <= h)%Z -> exists f, forall img, asz img = (w * h)%Z ->
  exists out, fits_round_trip bits depth w h meta disk img = Ok out /\ asz out = (w * h)%Z /\
    forall x y, (0 <= x < w)%Z -> (0 <= y < h)%Z -> aget out (y * w + x)%Z = f (aget img (y * w + x)%Z).
Proof.
  intros W H. exists (fun p => read_value (written_saturate bits depth meta) depth (disk (write_value bits depth p))). intros img S. destruct (round_trip_ok bits depth w h meta disk img W H S) as (o & E & So & F). exists o. split; [exact E|]. split; [exact So|].
  intros x y Hx Hy. exact (F y x Hy Hx).
Qed.
Example C47_nonvacuous : let img := Arr 6 (fun i => Fin (IZR i)) in asz img = (2 * 3)%Z /\ exists buf, write_buffer 0 (-32) 2 3 img = Ok buf /\ aget buf 0%Z = Fin 4.
Proof. split; [reflexivity|]. eexists. split; [reflexivity|]. reflexivity. Qed.

(** C72 *)
(* what an integer file stores for a value in its range: the nearest integer *)
Definition stores_nearest (depth : Z) (disk : fpix -> fpix) : Prop :=
  forall v, 0 <= v <= bitpix_max depth -> exists k : Z, disk (Fin v) = Fin (IZR k) /\ Rabs (IZR k - v) <= 1 / 2.
Lemma int_value bits depth disk p : (depth = 8 \/ depth = 16 \/ depth = 32)%Z -> 0 < adc_max bits depth <= bitpix_max depth -> stores_nearest depth disk ->
  0 <= p <= 1 -> (depth = 8%Z -> 1 <= p * adc_max bits depth) ->
  exists k : Z, read_value (written_saturate bits depth None) depth (disk (write_value bits depth (Fin p))) = Fin (IZR k * / adc_max bits depth)
    /\ Rabs (IZR k - p * adc_max bits depth) <= 1 / 2.
Proof.
  intros D A SN P P8. set (a := adc_max bits depth) in *.
  assert (DP : (0 <? depth)%Z = true) by lia.
  assert (V : write_value bits depth (Fin p) = Fin (p * a)).
  { unfold write_value. rewrite DP. fold a. unfold clampR. assert (0 <= p * a <= bitpix_max depth) by nra.
    destruct (Z.eqb_spec depth 8) as [E|E]; destruct (Rlt_dec (p * a) _) as [L|L]; try (specialize (P8 E)); try lra; destruct (Rlt_dec _ (p * a)) as [L2|L2]; try lra; reflexivity. }
  rewrite V. destruct (SN (p * a)) as (k & E & B); [nra|]. exists k. split; auto. rewrite E. unfold read_value, written_saturate. rewrite DP. fold a. unfold divisor.
  destruct (Rlt_dec 0 a); [reflexivity|lra].
Qed.
(* When the sensor's counts fit the file and no SATURATE is given, a pixel in [0,1] is off by at most half a count *)
Theorem C72_quantisation_partial bits depth w h disk img x y p : (depth = 8 \/ depth = 16 \/ depth = 32)%Z -> (0 <= w)%Z -> (0 <= h)%Z -> asz img = (w * h)%Z ->
  0 < adc_max bits depth <= bitpix_max depth -> stores_nearest depth disk -> (0 <= x < w)%Z -> (0 <= y < h)%Z ->
  aget img (y * w + x)%Z = Fin p -> 0 <= p <= 1 -> (depth = 8%Z -> 1 <= p * adc_max bits depth) ->
  exists out q, fits_round_trip bits depth w h None disk img = Ok out /\ aget out (y * w + x)%Z = Fin q /\ Rabs (q - p) <= 1 / (2 * adc_max bits depth).
Proof.
  intros D W H S A SN Hx Hy EP P P8. destruct (round_trip_ok bits depth w h None disk img W H S) as (o & E & So & F).
  destruct (int_value bits depth disk p D A SN P P8) as (k & EK & B). exists o, (IZR k * / adc_max bits depth). split; auto. split; [rewrite F by auto; rewrite EP; exact EK|].
  set (a := adc_max bits depth) in *. replace (IZR k * / a - p) with ((IZR k - p * a) * / a) by (field; lra).
  rewrite Rabs_mult, (Rabs_pos_eq (/ a)) by (apply Rlt_le, Rinv_0_lt_compat; lra).
  replace (1 / (2 * a)) with (1 / 2 * / a) by (field; lra). apply Rmult_le_compat_r; auto. apply Rlt_le, Rinv_0_lt_compat; lra.
Qed.
(* and a pixel that is a whole number of counts comes back exactly *)
Theorem C72_counts_exact_partial bits depth w h disk img x y (n : Z) : (depth = 8 \/ depth = 16 \/ depth = 32)%Z -> (0 <= w)%Z -> (0 <= h)%Z -> asz img = (w * h)%Z ->
  0 < adc_max bits depth <= bitpix_max depth -> stores_nearest depth disk -> (0 <= x < w)%Z -> (0 <= y < h)%Z ->
  aget img (y * w + x)%Z = Fin (IZR n / adc_max bits depth) -> 0 <= IZR n <= adc_max bits depth -> (depth = 8%Z -> 0 < n)%Z ->
  exists out, fits_round_trip bits depth w h None disk img = Ok out /\ aget out (y * w + x)%Z = aget img (y * w + x)%Z.
Proof.
  intros D W H S A SN Hx Hy EP P P8. destruct (round_trip_ok bits depth w h None disk img W H S) as (o & E & So & F).
  set (a := adc_max bits depth) in *.
  assert (PA : IZR n / a * a = IZR n) by (field; lra).
  assert (R1 : 0 <= IZR n / a <= 1) by (split; apply (Rmult_le_reg_r a); lra).
  assert (R8 : depth = 8%Z -> 1 <= IZR n / a * a) by (intros Q; specialize (P8 Q); rewrite PA; apply IZR_le; lia).
  destruct (int_value bits depth disk (IZR n / a) D A SN R1 R8) as (k & EK & B). fold a in EK, B. rewrite PA in B.
  assert (k = n). { rewrite <- minus_IZR in B. apply Rabs_le_inv in B. destruct B as (B1 & B2). assert (-1 < k - n < 1)%Z by (split; apply lt_IZR; cbn; lra). lia. }
  subst k. exists o. split; auto. rewrite F by auto. rewrite EP. exact EK.
Qed.
(* The full claim is false. A 16-bit sensor in a 16-bit file: white comes back below one half *)
Theorem C72_refuted_16bit_sensor disk : stores_nearest 16 disk ->
  exists q, read_value (written_saturate 16 16 None) 16 (disk (write_value 16 16 (Fin 1))) = Fin q /\ q < 1 / 2 + 1 / 65535.
Proof.
  intros SN. assert (A : adc_max 16 16 = 65535) by (unfold adc_max; cbn; reflexivity).
  assert (V : write_value 16 16 (Fin 1) = Fin 32767).
  { unfold write_value. cbn [Z.ltb Z.compare Z.eqb Pos.eqb]. rewrite A. unfold clampR, bitpix_max. cbn. destruct (Rlt_dec _ 0); [lra|]. destruct (Rlt_dec _ _); [reflexivity|lra]. }
  rewrite V. destruct (SN 32767) as (k & E & B); [unfold bitpix_max; cbn; lra|]. rewrite E. unfold read_value, written_saturate. cbn [Z.ltb Z.compare]. rewrite A. unfold divisor.
  destruct (Rlt_dec 0 65535); [|lra]. eexists. split; [reflexivity|]. apply Rabs_le_inv in B. lra.
Qed.
(* Black in an 8-bit file comes back as 1/255: 0 is reserved for blank pixels *)
Theorem C72_refuted_8bit_black disk : stores_nearest 8 disk ->
  exists q, read_value (written_saturate 0 8 None) 8 (disk (write_value 0 8 (Fin 0))) = Fin q /\ q = 1 / 255.
Proof.
  intros SN. assert (V : write_value 0 8 (Fin 0) = Fin 1).
  { unfold write_value, clampR. cbn. destruct (Rlt_dec _ 1); [reflexivity|]. lra. }
  rewrite V. destruct (SN 1) as (k & E & B); [unfold bitpix_max; cbn; lra|]. rewrite E. unfold read_value, written_saturate, adc_max, bitpix_max, divisor. cbn.
  destruct (Rlt_dec 0 255); [|lra]. eexists. split; [reflexivity|].
  assert (k = 1%Z). { rewrite <- minus_IZR in B. apply Rabs_le_inv in B. destruct B as (B1 & B2). assert (-1 < k - 1 < 1)%Z by (split; apply lt_IZR; cbn; lra). lia. }
  subst. lra.
Qed.
(* A SATURATE value in the metadata rescales the image: here white comes back as one half *)
Theorem C72_refuted_saturate disk : stores_nearest 16 disk ->
  exists q, read_value (written_saturate 12 16 (Some 8190)) 16 (disk (write_value 12 16 (Fin 1))) = Fin q /\ q = 1 / 2.
Proof.
  intros SN. assert (A : adc_max 12 16 = 4095) by (unfold adc_max; cbn; reflexivity).
  assert (V : write_value 12 16 (Fin 1) = Fin 4095).
  { unfold write_value. cbn [Z.ltb Z.compare Z.eqb Pos.eqb]. rewrite A. unfold clampR, bitpix_max. cbn. destruct (Rlt_dec _ 0); [lra|]. destruct (Rlt_dec _ _); [lra|f_equal; ring]. }
  rewrite V. destruct (SN 4095) as (k & E & B); [unfold bitpix_max; cbn; lra|]. rewrite E. unfold read_value, written_saturate, divisor. cbn [Z.ltb Z.compare].
  destruct (Rlt_dec 0 8190); [|lra]. eexists. split; [reflexivity|].
  assert (k = 4095%Z). { rewrite <- (minus_IZR k 4095) in B. apply Rabs_le_inv in B. destruct B as (B1 & B2). assert (-1 < k - 4095 < 1)%Z by (split; apply lt_IZR; cbn; lra). lia. }
  subst. lra.
Qed.
(* a 12-bit sensor in a 16-bit file, and a disk that rounds to nearest, meet the hypotheses *)
Example C72_nonvacuous : 0 < adc_max 12 16 <= bitpix_max 16 /\ exists disk, stores_nearest 16 disk.
Proof.
  split; [unfold adc_max, bitpix_max; cbn; lra|]. exists (fun v => match v with Fin x => Fin (IZR (ZnearestE x)) | NonFinite => NonFinite end).
  intros v _. exists (ZnearestE v). split; auto. rewrite Rabs_minus_sym. pose proof (Znearest_half (fun x => negb (Z.even x)) v). lra.
Qed.

Print Assumptions C46_unsigned_round_trip.
Print Assumptions C46_unsigned_monotone_saturating.
Print Assumptions C46_signed_round_trip_partial.
Print Assumptions C46_refuted_signed.
Print Assumptions C46_refuted_uint32.
Print Assumptions C47_file_order.
Print Assumptions C47_float_round_trip.
Print Assumptions C47_upright.
Print Assumptions C72_quantisation_partial.
Print Assumptions C72_counts_exact_partial.
Print Assumptions C72_refuted_16bit_sensor.
Print Assumptions C72_refuted_8bit_black.
Print Assumptions C72_refuted_saturate.
