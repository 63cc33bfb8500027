(* Theorems about images: properties C40, C41, C42 and C70. *)
From Verif Require Import Common Vec3 ImageModel ImageSpec ImageProofs ConvProofs.
From Coq Require Import Reals Lra Psatz.
From Flocq Require Import Core.
Import ListNotations.
Open Scope R_scope.

(** C40: pixel addressing *)
Theorem C40_new_image : forall A w h (v : A), (0 <= w)%Z -> (0 <= h)%Z -> (w * h < 2 ^ 31)%Z ->
  exists im, new_image w h v = Ok im /\ valid im /\ im_w im = w /\ im_h im = h
  /\ forall x y, inside im x y -> pix im x y = Ok v.
Proof.
  intros A w h v W H B. unfold new_image. assert (0 <= w * h)%Z by nia.
  replace (int_ok (w * h)) with true by (symmetry; apply int_ok_true; lia). cbn [negb].
  replace (w * h <? 0)%Z with false by lia. eexists. split; [reflexivity|].
  assert (V : valid (Img w h (repeat v (Z.to_nat (w * h))))) by (repeat split; cbn; rewrite ?repeat_length; lia).
  split; auto. split; [reflexivity|]. split; [reflexivity|]. intros x y I.
  destruct (pix_ok _ x y V I) as (a & E & ->). f_equal. apply nth_error_In in E. cbn in E. apply repeat_spec in E. auto.
Qed.
Print Assumptions C40_new_image.
(* every position inside names a stored pixel, every stored pixel is at exactly one position *)
Theorem C40_addressing_bijective : forall A (im : img A), valid im ->
  (forall x y, inside im x y -> exists i a, nth_error (im_data im) i = Some a /\ pix im x y = Ok a /\ at_xy im x y = Ok a /\ to_linear im x y = Ok (Z.of_nat i))
  /\ (forall i, (i < List.length (im_data im))%nat -> exists x y, inside im x y /\ to_linear im x y = Ok (Z.of_nat i)
       /\ forall x' y', inside im x' y' -> to_linear im x' y' = Ok (Z.of_nat i) -> x' = x /\ y' = y).
Proof.
  intros A im V. split.
  - intros x y I. destruct (pix_ok im x y V I) as (a & E & P). exists (Z.to_nat (y * im_w im + x)), a. repeat split; auto.
    + unfold at_xy. destruct I as (X & Y). replace (im_w im <=? x)%Z with false by lia. replace (im_h im <=? y)%Z with false by lia. auto.
    + rewrite (linear_ok im x y V I). f_equal. destruct I, V as (? & ? & _). rewrite Z2Nat.id; auto. nia.
  - intros i Hi. destruct V as (W & H & L & B) eqn:EV. assert (0 < im_w im)%Z by nia.
    pose proof (Z.mod_pos_bound (Z.of_nat i) (im_w im) H0). pose proof (Z_div_mod_eq_full (Z.of_nat i) (im_w im)) as D.
    assert (I : inside im (Z.of_nat i mod im_w im) (Z.of_nat i / im_w im)).
    { split; auto. split; [apply Z.div_pos; lia|]. apply Z.div_lt_upper_bound; lia. }
    exists (Z.of_nat i mod im_w im)%Z, (Z.of_nat i / im_w im)%Z. split; auto. split.
    + rewrite (linear_ok im _ _ V I). f_equal. lia.
    + intros x' y' I' E. rewrite (linear_ok im _ _ V I') in E. injection E as E. destruct I' as (X' & Y'), I as (X & Y).
      apply (lin_inj (im_w im)); auto. lia.
Qed.
Print Assumptions C40_addressing_bijective.
(* hence a store changes the pixel it names and no other *)
Theorem C40_store_then_read : forall A (im : img A) x y v, valid im -> inside im x y ->
  exists im', at_store im x y v = Ok im' /\ valid im'
  /\ pix im' x y = Ok v /\ forall x' y', inside im x' y' -> (x', y') <> (x, y) -> pix im' x' y' = pix im x' y'.
Proof.
  intros A im x y v V I. pose proof (linear_ok im x y V I) as E. destruct V as (W & H & L & B) eqn:EV. pose proof I as (X & Y).
  pose proof (lin_range _ _ _ _ X Y) as Q. unfold at_store.
  replace (im_w im <=? x)%Z with false by lia. replace (im_h im <=? y)%Z with false by lia. cbn [orb]. unfold set_pix. rewrite E. cbn [obind].
  replace ((0 <=? y * im_w im + x) && (y * im_w im + x <? Z.of_nat (List.length (im_data im))))%Z with true by (symmetry; rewrite andb_true_iff, L; lia).
  eexists. split; [reflexivity|].
  set (im' := Img (im_w im) (im_h im) (upd (im_data im) (Z.to_nat (y * im_w im + x)) v)).
  assert (V' : valid im') by (repeat split; unfold im'; cbn [im_w im_h im_data]; rewrite ?upd_length; auto).
  split; auto. split.
  - destruct (pix_ok im' x y V' I) as (a & N & ->). f_equal. unfold im' in N. cbn [im_w im_data] in N. rewrite nth_error_upd_eq in N; [congruence|]. lia.
  - intros x' y' I' D. destruct (pix_ok im' x' y' V' I') as (a & N & ->). destruct (pix_ok im x' y' V I') as (b & N' & ->). f_equal.
    unfold im' in N. cbn [im_w im_data] in N. rewrite nth_error_upd_neq in N; [congruence|]. intros Eq. apply D.
    pose proof I' as (X' & Y'). pose proof (lin_range _ _ _ _ X' Y'). assert (EZ : (y' * im_w im + x' = y * im_w im + x)%Z) by lia.
    destruct (lin_inj _ _ _ _ _ X' X EZ). congruence.
Qed.
Print Assumptions C40_store_then_read.
(* partial: too large coordinates are rejected, and an index is checked fully. Missing: negative coordinates. *)
Theorem C40_at_rejects_large_partial : forall A (im : img A) x y, (im_w im <= x \/ im_h im <= y)%Z ->
  at_xy im x y = Throws /\ forall v, at_store im x y v = Throws.
Proof. intros A im x y H. unfold at_store, at_xy. replace ((im_w im <=? x) || (im_h im <=? y))%Z with true by lia. auto. Qed.
Print Assumptions C40_at_rejects_large_partial.
Theorem C40_at_index : forall A (im : img A) i, (0 <= i)%Z ->
  (if (i <? Z.of_nat (List.length (im_data im)))%Z then exists a, at_index im i = Ok a /\ nth_error (im_data im) (Z.to_nat i) = Some a else at_index im i = Throws).
Proof.
  intros A im i H. unfold at_index. destruct (Z.ltb_spec i (Z.of_nat (List.length (im_data im)))).
  - replace (Z.of_nat (List.length (im_data im)) <=? i)%Z with false by lia. destruct (elem_ok im i) as (a & ? & ?); [lia|]. eauto.
  - replace (Z.of_nat (List.length (im_data im)) <=? i)%Z with true by lia. auto.
Qed.
Print Assumptions C40_at_index.
(* at() checks only the upper bounds: a column of -1 names the last pixel of the row above ... *)
Theorem C40_refuted_negative_column : forall A (im : img A) y, valid im -> (1 <= im_w im)%Z -> (1 <= y < im_h im)%Z ->
  at_xy im (-1) y = pix im (im_w im - 1) (y - 1) /\ exists a, at_xy im (-1) y = Ok a.
Proof.
  intros A im y V W Y.
  assert (I : inside im (im_w im - 1) (y - 1)) by (split; lia).
  assert (E : at_xy im (-1) y = pix im (im_w im - 1) (y - 1)).
  { unfold at_xy. replace (im_w im <=? -1)%Z with false by lia. replace (im_h im <=? y)%Z with false by lia. cbn [orb]. unfold pix.
    f_equal. rewrite (linear_ok im _ _ V I). destruct V as (_ & ? & L & B). assert (0 <= y * im_w im)%Z by nia.
    assert (0 <= y * im_w im + -1 < 2 ^ 31)%Z by nia. assert (y * im_w im < 2 ^ 31)%Z by nia.
    unfold to_linear. rewrite !int_ok_true by lia. cbn [andb]. f_equal. unfold to_size. rewrite Z.mod_small by lia. ring. }
  split; auto. destruct (pix_ok im _ _ V I) as (a & _ & Q). exists a. congruence.
Qed.
Print Assumptions C40_refuted_negative_column.
(* ... or is an access outside the buffer *)
Theorem C40_refuted_negative_outside : forall A (im : img A) x, valid im -> (1 <= im_h im)%Z -> (- 2 ^ 31 <= x < 0)%Z -> at_xy im x 0 = UB.
Proof.
  intros A im x (W & H & L & B) H1 X. unfold at_xy. replace (im_w im <=? x)%Z with false by lia. replace (im_h im <=? 0)%Z with false by lia. cbn [orb].
  unfold pix, to_linear. cbn [Z.mul Z.add]. rewrite !int_ok_true by lia. cbn [andb obind]. unfold elem, to_size.
  assert (M : (x mod 2 ^ 64 = x + 2 ^ 64)%Z). { rewrite <- (Z.mod_add x 1) by lia. apply Z.mod_small. lia. }
  rewrite M, L. replace (x + 2 ^ 64 <? im_w im * im_h im)%Z with false by lia. rewrite andb_false_r. reflexivity.
Qed.
Print Assumptions C40_refuted_negative_outside.
(* the constructor accepts two negative dimensions *)
Theorem C40_refuted_negative_size : exists im : img nat, new_image (-2) (-3) 7%nat = Ok im /\ List.length (im_data im) = 6%nat /\ ~ valid im.
Proof. eexists. split; [reflexivity|]. split; [reflexivity|]. intros (W & _). cbn in W. lia. Qed.
Print Assumptions C40_refuted_negative_size.
Definition image23 : img nat := Img 2 3 [1; 2; 3; 4; 5; 6]%nat.
Example C40_instance : valid image23 /\ inside image23 1 2 /\ at_xy image23 1 2 = Ok 6%nat /\ at_xy image23 (-1) 1 = Ok 2%nat.
Proof. split; [repeat split; cbn; lia|]. split; [split; cbn; lia|]. split; reflexivity. Qed.

(** C41: sampling *)
(* whatever the float rounding does, no read outside the image, for images up to 2^24 + 1 on a side *)
Theorem C41_sampling_reads_existing_pixels_partial : forall A rnd m (im : img A) dflt u v,
  float_rounding rnd -> valid im -> (im_w im <= 2 ^ 24 + 1)%Z -> (im_h im <= 2 ^ 24 + 1)%Z -> im_data im <> [] ->
  wrappable m u -> wrappable m v ->
  (exists p, sample_nearest rnd m im dflt u v = Ok p /\ In p (im_data im))
  /\ exists fx fy p00 p10 p01 p11, bilinear_taps rnd m im u v = Ok (fx, fy, (p00, p10, (p01, p11)))
     /\ 0 <= fx <= 1 /\ 0 <= fy <= 1 /\ Forall (fun p => In p (im_data im)) [p00; p10; p01; p11].
Proof.
  intros A rnd m im d u v R V S1 S2 NE U V'. split; [apply nearest_safe; auto; split; auto|].
  destruct (taps_safe rnd m im u v R V (conj S1 S2) NE U V') as (fx & fy & p00 & p10 & p01 & p11 & E & F1 & F2 & I0 & I1 & I2 & I3).
  exists fx, fy, p00, p10, p01, p11. repeat split; auto; try lra.
Qed.
Print Assumptions C41_sampling_reads_existing_pixels_partial.
(* in exact arithmetic a bilinear sample lies between any bounds of the pixels *)
Theorem C41_bilinear_between : forall m (im : img R) u v lo hi, valid im -> (im_w im <= 2 ^ 24 + 1)%Z -> (im_h im <= 2 ^ 24 + 1)%Z ->
  im_data im <> [] -> wrappable m u -> wrappable m v -> Forall (fun p => lo <= p <= hi) (im_data im) ->
  exists s, sample_bilinear exact m im u v = Ok s /\ lo <= s <= hi.
Proof.
  intros m im u v lo hi V S1 S2 NE U V' F. rewrite Forall_forall in F.
  destruct (taps_safe exact m im u v exact_rounding V (conj S1 S2) NE U V') as (fx & fy & p00 & p10 & p01 & p11 & E & F1 & F2 & I0 & I1 & I2 & I3).
  unfold sample_bilinear. destruct (im_data im) eqn:D; [congruence|]. rewrite E. cbn [obind]. eexists. split; [reflexivity|].
  apply blend_bounds; auto.
Qed.
Print Assumptions C41_bilinear_between.
Theorem C41_bilinear_between_int : forall m (im : img Z) u v lo hi, valid im -> (im_w im <= 2 ^ 24 + 1)%Z -> (im_h im <= 2 ^ 24 + 1)%Z ->
  im_data im <> [] -> wrappable m u -> wrappable m v -> Forall (fun p => (lo <= p <= hi)%Z) (im_data im) ->
  exists s, sample_bilinear_int exact m im u v = Ok s /\ (lo <= s <= hi)%Z.
Proof.
  intros m im u v lo hi V S1 S2 NE U V' F. rewrite Forall_forall in F.
  destruct (taps_safe exact m im u v exact_rounding V (conj S1 S2) NE U V') as (fx & fy & p00 & p10 & p01 & p11 & E & F1 & F2 & I0 & I1 & I2 & I3).
  unfold sample_bilinear_int. destruct (im_data im) eqn:D; [congruence|]. rewrite E. cbn [obind]. eexists. split; [reflexivity|].
  apply truncz_bounds. assert (Q : forall p, In p (z :: l) -> IZR lo <= IZR p <= IZR hi) by (intros p Hp; apply F in Hp; split; apply IZR_le; lia).
  apply blend_bounds; auto; apply Q; auto.
Qed.
Print Assumptions C41_bilinear_between_int.
(* sampling at the centre of pixel (i, j) returns that pixel - in Repeat mode only left of the last column and above the last row *)
Theorem C41_centre_sample_partial : forall m (im : img R) i j, valid im -> (2 <= im_w im)%Z -> (2 <= im_h im)%Z -> inside im i j ->
  (m = Repeat -> (i < im_w im - 1)%Z /\ (j < im_h im - 1)%Z) ->
  let u := IZR i / IZR (im_w im - 1) in let v := IZR j / IZR (im_h im - 1) in
  exists p, pix im i j = Ok p /\ sample_nearest exact m im 0 u v = Ok p /\ sample_bilinear exact m im u v = Ok p.
Proof.
  intros m im i j V W H I K u v.
  assert (KI : keeps_centre m i (im_w im)) by (destruct m; cbn; auto; destruct K; auto).
  assert (KJ : keeps_centre m j (im_h im)) by (destruct m; cbn; auto; destruct K; auto).
  destruct (centre_taps m im i j V W H I KI KJ) as (p & b & c & d & P & T). exists p. split; auto. split.
  - pose proof (centre_nearest m im 0 i j V W H I KI KJ) as N. rewrite P in N. exact N.
  - unfold sample_bilinear. destruct (im_data im) eqn:D.
    { destruct V as (_ & _ & L & _). rewrite D in L. cbn in L. nia. }
    unfold u, v. fold (centre i (im_w im)) (centre j (im_h im)). rewrite T. cbn [obind]. rewrite blend_corner. reflexivity.
Qed.
Print Assumptions C41_centre_sample_partial.
(* in Repeat mode, the default, the coordinate 1 of the last column gives the first column *)
Theorem C41_refuted_repeat_last_column : forall (im : img R) j, valid im -> (2 <= im_w im)%Z -> (2 <= im_h im)%Z -> (0 <= j < im_h im - 1)%Z ->
  sample_nearest exact Repeat im 0 1 (IZR j / IZR (im_h im - 1)) = pix im 0 j.
Proof.
  intros im j V W H J. rewrite <- (centre_nearest Repeat im 0 0 j); auto; cbn; try lia; try (split; lia).
  unfold sample_nearest. destruct (im_data im); auto. f_equal.
  - cbn [wrap_coordinate]. unfold fmod1. rewrite !truncz_pos; [|unfold centre; lra|lra]. rewrite (flr_unique 1 1) by lra.
    replace (centre 0 (im_w im)) with 0 by (unfold centre; lra). rewrite (flr_unique 0 0) by lra. replace (1 - 1) with 0 by lra. replace (0 - 0) with 0 by lra. auto.
Qed.
Print Assumptions C41_refuted_repeat_last_column.
(* Mirror mode converts the coordinate to int first: undefined from 2^31 on *)
Theorem C41_refuted_mirror_large : forall A rnd (im : img A) d u v, im_data im <> [] -> IZR (2 ^ 31) <= Rabs u -> sample_nearest rnd Mirror im d u v = UB.
Proof.
  intros A rnd im d u v NE U. unfold sample_nearest. destruct (im_data im); [congruence|]. cbn [wrap_coordinate].
  rewrite truncz_pos by apply Rabs_pos. unfold cast_int. replace (int_ok (flr (Rabs u))) with false; [reflexivity|].
  symmetry. unfold int_ok. rewrite andb_false_iff. right. apply Z.ltb_ge. pose proof (flr_spec (Rabs u)).
  assert (2 ^ 31 < flr (Rabs u) + 1)%Z; [|lia]. apply lt_IZR. rewrite plus_IZR. lra.
Qed.
Print Assumptions C41_refuted_mirror_large.

(* IEEE binary32 rounding to nearest even (overflow aside) is a float_rounding ... *)
Definition binary32 : R -> R := round radix2 (FLT_exp (-149) 24) ZnearestE.
Theorem C41_binary32_rounding : float_rounding binary32.
Proof.
  split.
  - intros a b H. apply round_le; auto. apply FLT_exp_valid. unfold Prec_gt_0. lia. apply valid_rnd_N.
  - intros n Hn. apply round_generic; [apply valid_rnd_N|]. destruct (Z.eq_dec (Z.abs n) (2 ^ 24)) as [E|E].
    + assert (G : generic_format radix2 (FLT_exp (-149) 24) (IZR (2 ^ 24))).
      { apply generic_format_FLT. exists (Float radix2 1 24); [unfold F2R; cbn; lra| cbn; lia | cbn; lia]. }
      destruct (Z.abs_eq_or_opp n) as [Q|Q].
      * replace n with (2 ^ 24)%Z by lia. auto.
      * replace n with (- 2 ^ 24)%Z by lia. rewrite opp_IZR. apply generic_format_opp. auto.
    + apply generic_format_FLT. exists (Float radix2 n 0); [unfold F2R; cbn; lra | cbn; lia | cbn; lia].
Qed.
Print Assumptions C41_binary32_rounding.
(* ... and with it a wider image is read outside its buffer: float(width - 1) rounds up. *)
Lemma b32_round_up : binary32 (IZR (2 ^ 24 + 3)) = IZR (2 ^ 24 + 4).
Proof.
  unfold binary32, round, scaled_mantissa, cexp. rewrite (mag_unique radix2 (IZR (2 ^ 24 + 3)) 25).
  2:{ rewrite Rabs_pos_eq by (apply IZR_le; lia). change (bpow radix2 (25 - 1)) with (IZR (2 ^ 24)). change (bpow radix2 25) with (IZR (2 ^ 25)). split; [apply IZR_le|apply IZR_lt]; lia. }
  change (FLT_exp (-149) 24 25) with 1%Z. unfold F2R. cbn [Fnum Fexp]. change (bpow radix2 1) with 2. change (bpow radix2 (- (1))) with (/ 2).
  assert (ZnearestE (IZR (2 ^ 24 + 3) * / 2) = 8388610%Z) as ->; [|change (2 ^ 24 + 4)%Z with 16777220%Z; lra].
  unfold Znearest.
  assert (F : Zfloor (IZR (2 ^ 24 + 3) * / 2) = 8388609%Z) by (apply Zfloor_imp; change (2 ^ 24 + 3)%Z with 16777219%Z; split; cbn; lra).
  assert (C : Zceil (IZR (2 ^ 24 + 3) * / 2) = 8388610%Z) by (apply Zceil_imp; change (2 ^ 24 + 3)%Z with 16777219%Z; split; cbn; lra).
  rewrite F, C. rewrite Rcompare_Eq; [reflexivity|]. change (2 ^ 24 + 3)%Z with 16777219%Z. lra.
Qed.
Theorem C41_refuted_wide_image : forall A (im : img A) v, valid im -> im_w im = (2 ^ 24 + 4)%Z -> im_h im = 1%Z ->
  bilinear_taps binary32 Clamp im 1 v = UB.
Proof.
  intros A im v (_ & _ & L & _) W H. unfold bilinear_taps. cbn [wrap_coordinate obind]. rewrite (clamp01_id 1) by lra.
  unfold texel. rewrite W, H. change (2 ^ 24 + 4 - 1)%Z with (2 ^ 24 + 3)%Z. rewrite b32_round_up, Rmult_1_l. change (1 - 1)%Z with 0%Z.
  assert (R32 := C41_binary32_rounding).
  assert (E : binary32 (IZR (2 ^ 24 + 4)) = IZR (2 ^ 24 + 4)).
  { apply round_generic; [apply valid_rnd_N|]. apply generic_format_FLT. exists (Float radix2 (2 ^ 22 + 1) 2); [unfold F2R; cbn; lra | cbn; lia | cbn; lia]. }
  rewrite E. rewrite truncz_IZR. rewrite cast_ok by lia. cbn [obind].
  rewrite (rnd_int binary32 0 R32), Rmult_0_r, (rnd_int binary32 0 R32), (truncz_IZR 0), cast_ok by lia. cbn [obind].
  unfold pix at 1. unfold to_linear. rewrite W. change (0 * (2 ^ 24 + 4))%Z with 0%Z. rewrite !int_ok_true by lia. cbn [andb obind].
  unfold elem, to_size. rewrite L, W, H. reflexivity.
Qed.
Print Assumptions C41_refuted_wide_image.
Definition image22 : img R := Img 2 2 [1; 2; 3; 4].
Example C41_instance : valid image22 /\ im_data image22 <> [] /\ wrappable Mirror (5 / 2) /\ Forall (fun p => 1 <= p <= 4) (im_data image22) /\ inside image22 1 0.
Proof.
  split; [repeat split; cbn; lia|]. split; [discriminate|]. split; [cbn; rewrite Rabs_pos_eq; lra|]. split; [|split; cbn; lia].
  repeat constructor; lra.
Qed.

(** C42: the two convolution paths *)
(* large kernels (the frequency domain path): exactly linear convolution, with no wrap-around from the padding *)
Theorem C42_large_kernels_convolve : forall im k, (25 < fw k * fh k)%nat ->
  same_image (convolve im k) (FI (fw im) (fh im) (convolution im k)).
Proof.
  intros im k K. assert (0 < fw k /\ 0 < fh k)%nat by (split; destruct (fw k), (fh k); lia).
  assert (E : convolve im k = convolve_fft im k).
  { unfold convolve. replace ((fw k =? 1) && (fh k =? 1))%nat with false; [replace (fw k * fh k <=? 25)%nat with false by lia; auto|].
    symmetry. apply andb_false_iff. destruct (Nat.eqb_spec (fw k) 1) as [W1|]; auto. destruct (Nat.eqb_spec (fh k) 1) as [H1|]; auto. rewrite W1, H1 in K. lia. }
  rewrite E. split; [reflexivity|]. split; [reflexivity|]. intros x y X Y. apply fft_is_convolution; auto; lia.
Qed.
Print Assumptions C42_large_kernels_convolve.
(* small kernels: convolution with the kernel turned by half a turn *)
Theorem C42_small_kernels_flip : forall im k, Nat.odd (fw k) = true -> Nat.odd (fh k) = true -> (fw k * fh k <= 25)%nat ->
  same_image (convolve im k) (FI (fw im) (fh im) (convolution im (FI (fw k) (fh k) (fun i j => fp k (fw k - 1 - i) (fh k - 1 - j))))).
Proof.
  intros im k OW OH K. unfold convolve. destruct ((fw k =? 1) && (fh k =? 1))%nat eqn:E.
  - apply andb_true_iff in E. destruct E as (E1 & E2). apply Nat.eqb_eq in E1, E2. repeat split. cbn [fp fw fh]. intros x y X Y.
    unfold convolution. cbn [fw fh fp]. rewrite E1, E2. cbn [sumf]. unfold zero_ext, in_range.
    change (Z.of_nat (1 / 2)) with 0%Z. cbn [Z.of_nat]. rewrite !Z.sub_0_r.
    replace ((0 <=? Z.of_nat x) && (Z.of_nat x <? Z.of_nat (fw im)) && ((0 <=? Z.of_nat y) && (Z.of_nat y <? Z.of_nat (fh im))))%Z with true by (symmetry; rewrite !andb_true_iff; lia).
    rewrite !Nat2Z.id. cbn. ring.
  - replace (fw k * fh k <=? 25)%nat with true by (symmetry; apply Nat.leb_le; auto).
    split; [reflexivity|]. split; [reflexivity|]. intros x y X Y. rewrite direct_is_convolution_of_flipped by auto. reflexivity.
Qed.
Print Assumptions C42_small_kernels_flip.
(* partial: for kernels of odd size that are point-symmetric, convolve is convolution on both paths.
   Missing: other kernels, for which the paths disagree (below). *)
Theorem C42_symmetric_kernels_partial : forall im k, Nat.odd (fw k) = true -> Nat.odd (fh k) = true -> point_symmetric k ->
  same_image (convolve im k) (FI (fw im) (fh im) (convolution im k)) /\ same_image (convolve_direct im k) (convolve_fft im k).
Proof.
  intros im k OW OH PS. assert (P : (0 < fw k /\ 0 < fh k)%nat) by (split; apply Nat.neq_0_lt_0; intros E; rewrite E in *; discriminate).
  assert (F : forall x y, convolution im (FI (fw k) (fh k) (fun i j => fp k (fw k - 1 - i) (fh k - 1 - j))) x y = convolution im k x y).
  { intros x y. unfold convolution. cbn [fw fh fp]. apply sumf_ext. intros ky Hy. apply sumf_ext. intros kx Hx. rewrite PS; auto. }
  split.
  - destruct (le_lt_dec (fw k * fh k) 25).
    + destruct (C42_small_kernels_flip im k OW OH l) as (A & B & C). split; [exact A|]. split; [exact B|]. intros x y X Y. rewrite C by auto. cbn [fp]. apply F.
    + apply C42_large_kernels_convolve. auto.
  - split; [reflexivity|]. split; [reflexivity|]. intros x y X Y. rewrite direct_is_convolution_of_flipped, F by auto. symmetry. apply fft_is_convolution; auto; apply P.
Qed.
Print Assumptions C42_symmetric_kernels_partial.
(* the two paths disagree on the same kernel, and padding a kernel with zeros past the size limit changes the result:
   a one-step shift goes right with the 3 x 1 kernel and left with the same kernel padded to 27 x 1 *)
Definition spot : fimg := FI 3 1 (fun x y => if (x =? 0)%nat then 1 else 0).
Definition shift3 : fimg := FI 3 1 (fun x y => if (x =? 0)%nat then 1 else 0).
Definition shift27 : fimg := FI 27 1 (fun x y => if (x =? 12)%nat then 1 else 0).
Lemma z0 a b : a = 0 -> a * b = 0. Proof. intros ->. ring. Qed.
Lemma shift_spec im x y : convolution im shift27 x y = convolution im shift3 x y.
Proof.
  unfold convolution, shift27, shift3. cbn [fw fh fp]. cbn [sumf]. change (Z.of_nat (27 / 2)) with 13%Z. change (Z.of_nat (3 / 2)) with 1%Z. change (Z.of_nat (1 / 2)) with 0%Z.
  cbn [Nat.eqb Z.of_nat Z.sub Z.opp Pos.of_succ_nat Pos.succ Z.add Z.pos_sub]. rewrite !Rmult_0_r, !Rmult_1_r.
  rewrite !Rplus_0_l, !Rplus_0_r. reflexivity.
Qed.
Theorem C42_refuted_paths_disagree :
  ~ same_image (convolve_direct spot shift3) (convolve_fft spot shift3)
  /\ (forall im x y, convolution im shift3 x y = convolution im shift27 x y) /\ ~ same_image (convolve spot shift3) (convolve spot shift27).
Proof.
  assert (D : fp (convolve_direct spot shift3) 1 0 = 1).
  { unfold convolve_direct, spot, shift3, in_range. cbn. lra. }
  assert (C : convolution spot shift3 1 0 = 0).
  { unfold convolution, spot, shift3, zero_ext, in_range. cbn. change (Pos.to_nat 2 =? 0)%nat with false. cbv iota. lra. }
  split; [|split].
  - intros (_ & _ & H). specialize (H 1%nat 0%nat). cbn [fw fh convolve_direct spot] in H.
    rewrite D in H. rewrite fft_is_convolution, C in H by (cbn; apply Nat.ltb_lt; reflexivity). specialize (H ltac:(lia) ltac:(lia)). lra.
  - intros. symmetry. apply shift_spec.
  - intros (_ & _ & H). specialize (H 1%nat 0%nat). 
    assert (Q : fp (convolve spot shift27) 1 0 = 0).
    { destruct (C42_large_kernels_convolve spot shift27) as (_ & _ & E); [cbn; lia|]. rewrite E by (cbn; lia). cbn [fp]. rewrite shift_spec. exact C. }
    rewrite Q in H. change (convolve spot shift3) with (convolve_direct spot shift3) in H. rewrite D in H. cbn [fw fh convolve_direct spot] in H. specialize (H ltac:(lia) ltac:(lia)). lra.
Qed.
Print Assumptions C42_refuted_paths_disagree.
Example C42_instance : point_symmetric (FI 3 3 (fun x y => if ((x =? 1) && (y =? 1))%nat then 4 else 1)).
Proof. intros kx ky X Y. cbn in *. destruct kx as [|[|[|kx]]]; try lia; destruct ky as [|[|[|ky]]]; try lia; reflexivity. Qed.

(** C70: adding images *)
Theorem C70_image_add : forall a b : img R, valid a -> valid b ->
  (im_w a = im_w b /\ im_h a = im_h b ->
     exists c, image_add a b = Ok c /\ valid c /\ im_w c = im_w a /\ im_h c = im_h a
     /\ forall x y p q, inside a x y -> pix a x y = Ok p -> pix b x y = Ok q -> pix c x y = Ok (p + q))
  /\ (im_w a <> im_w b \/ im_h a <> im_h b -> image_add a b = Throws).
Proof.
  intros a b Va Vb. split.
  - intros (EW & EH). unfold image_add. replace ((im_w a =? im_w b) && (im_h a =? im_h b))%Z with true by (symmetry; rewrite andb_true_iff; lia). cbn [negb].
    assert (ZL : forall l l' : list R, List.length l = List.length l' -> List.length (zip_add l l') = List.length l).
    { induction l; destruct l'; cbn; intros; try lia; auto. }
    assert (ZN : forall l l' i p q, nth_error l i = Some p -> nth_error l' i = Some q -> nth_error (zip_add l l') i = Some (p + q)).
    { induction l as [|s l IH]; intros [|s' l'] [|i] p q; cbn; try discriminate; auto; congruence. }
    assert (L : List.length (im_data a) = List.length (im_data b)) by (destruct Va as (_ & _ & La & _), Vb as (_ & _ & Lb & _); rewrite EW, EH in La; lia).
    eexists. split; [reflexivity|]. assert (Vc : valid (Img (im_w a) (im_h a) (zip_add (im_data a) (im_data b)))).
    { destruct Va as (? & ? & ? & ?). repeat split; cbn [im_w im_h im_data]; auto. rewrite ZL; auto. }
    split; auto. split; [reflexivity|]. split; [reflexivity|]. intros x y p q I P Q.
    assert (Ib : inside b x y) by (destruct I; split; [rewrite <- EW|rewrite <- EH]; auto).
    destruct (pix_ok _ x y Vc I) as (r & Er & ->). f_equal. cbn [im_w im_data] in Er.
    destruct (pix_ok a x y Va I) as (p' & Ep & P'). destruct (pix_ok b x y Vb Ib) as (q' & Eq & Q'). rewrite <- EW in Eq.
    rewrite (ZN _ _ _ _ _ Ep Eq) in Er. congruence.
  - intros D. unfold image_add. replace ((im_w a =? im_w b) && (im_h a =? im_h b))%Z with false; auto. symmetry. apply andb_false_iff. lia.
Qed.
Print Assumptions C70_image_add.
Example C70_instance : valid image22 /\ image_add image22 image22 = Ok (Img 2 2 [1 + 1; 2 + 2; 3 + 3; 4 + 4]).
Proof. split; [repeat split; cbn; lia|reflexivity]. Qed.
