(* Lemmas about images. *)
From Verif Require Import Common Vec3 ImageModel ImageSpec.
From Coq Require Import Reals Lra Psatz.
Open Scope R_scope.

(** Addressing *)
Lemma lin_range (w h x y : Z) : (0 <= x < w -> 0 <= y < h -> 0 <= y * w + x < w * h)%Z.
Proof. intros. nia. Qed.
Lemma linear_ok {A} (im : img A) x y : valid im -> inside im x y -> to_linear im x y = Ok (y * im_w im + x)%Z.
Proof.
  intros (W & H & L & B) (X & Y). pose proof (lin_range _ _ _ _ X Y) as Q.
  assert (0 <= y * im_w im)%Z by (apply Z.mul_nonneg_nonneg; lia).
  unfold to_linear, int_ok, to_size.
  replace (((- 2 ^ 31 <=? y * im_w im) && (y * im_w im <? 2 ^ 31) && ((- 2 ^ 31 <=? y * im_w im + x) && (y * im_w im + x <? 2 ^ 31)))%Z) with true.
  - f_equal. apply Z.mod_small. lia.
  - clear L. symmetry. rewrite !andb_true_iff. lia.
Qed.
Lemma elem_ok {A} (im : img A) i : (0 <= i < Z.of_nat (List.length (im_data im)))%Z ->
  exists a, nth_error (im_data im) (Z.to_nat i) = Some a /\ elem im i = Ok a.
Proof.
  intros H. unfold elem. replace ((0 <=? i) && (i <? Z.of_nat (List.length (im_data im))))%Z with true by (symmetry; rewrite andb_true_iff; lia).
  destruct (nth_error (im_data im) (Z.to_nat i)) as [a|] eqn:E; eauto. apply nth_error_None in E. lia.
Qed.
Lemma pix_ok {A} (im : img A) x y : valid im -> inside im x y ->
  exists a, nth_error (im_data im) (Z.to_nat (y * im_w im + x)) = Some a /\ pix im x y = Ok a.
Proof.
  intros V I. unfold pix. rewrite (linear_ok _ _ _ V I). cbn [obind]. destruct V as (W & H & L & B), I as (X & Y).
  apply elem_ok. rewrite L. apply lin_range; auto.
Qed.
Lemma lin_inj (w x y x' y' : Z) : (0 <= x < w -> 0 <= x' < w -> y * w + x = y' * w + x' -> x = x' /\ y = y')%Z.
Proof. intros X X' E. assert (y = y') by nia. subst. lia. Qed.

Lemma flr_spec r : IZR (flr r) <= r < IZR (flr r) + 1.
Proof. unfold flr. rewrite minus_IZR. destruct (archimed r). lra. Qed.
Lemma flr_unique r z : IZR z <= r < IZR z + 1 -> flr r = z.
Proof.
  intros H. pose proof (flr_spec r).
  assert (A1 : (flr r < z + 1)%Z) by (apply lt_IZR; rewrite plus_IZR; lra).
  assert (A2 : (z < flr r + 1)%Z) by (apply lt_IZR; rewrite plus_IZR; lra). lia.
Qed.
Lemma flr_IZR z : flr (IZR z) = z.
Proof. apply flr_unique. lra. Qed.
Lemma truncz_pos r : 0 <= r -> truncz r = flr r.
Proof. intros H. unfold truncz. replace (Rleb 0 r) with true; auto. symmetry. apply Rleb_true; auto. Qed.
Lemma truncz_IZR z : truncz (IZR z) = z.
Proof. unfold truncz. destruct (Rleb 0 (IZR z)); rewrite ?flr_IZR; auto. rewrite <- opp_IZR, flr_IZR. lia. Qed.
Lemma roundz_pos r : 0 <= r -> roundz r = flr (r + / 2).
Proof. intros H. unfold roundz. replace (Rleb 0 r) with true; auto. symmetry. apply Rleb_true; auto. Qed.
Lemma flr_nonneg r : 0 <= r -> (0 <= flr r)%Z.
Proof. intros H. pose proof (flr_spec r). assert (-1 < flr r)%Z; [|lia]. apply lt_IZR. cbn. lra. Qed.
Lemma flr_le r z : r < IZR z + 1 -> (flr r <= z)%Z.
Proof. intros H. pose proof (flr_spec r). assert (flr r < z + 1)%Z; [|lia]. apply lt_IZR. rewrite plus_IZR. lra. Qed.
Lemma fmod1_bounds c : -1 < fmod1 c < 1 /\ (0 <= c -> 0 <= fmod1 c).
Proof.
  unfold fmod1, truncz. destruct (Rleb 0 c) eqn:E; rb.
  - pose proof (flr_spec c). lra.
  - pose proof (flr_spec (- c)). rewrite opp_IZR. split; lra.
Qed.
Lemma clamp01_bounds c : 0 <= clamp01 c <= 1.
Proof. unfold clamp01. destruct (Rltb c 0) eqn:E; [lra|]. destruct (Rltb 1 c) eqn:F; rb; lra. Qed.
Lemma clamp01_id c : 0 <= c <= 1 -> clamp01 c = c.
Proof. intros H. unfold clamp01. destruct (Rltb c 0) eqn:E; rb; [lra|]. destruct (Rltb 1 c) eqn:F; rb; lra. Qed.

Lemma rnd_int rnd z : float_rounding rnd -> (Z.abs z <= 2 ^ 24)%Z -> rnd (IZR z) = IZR z.
Proof. intros (_ & H). apply H. Qed.
Lemma rnd_between rnd a b c : float_rounding rnd -> (Z.abs a <= 2 ^ 24)%Z -> (Z.abs b <= 2 ^ 24)%Z -> IZR a <= c <= IZR b -> IZR a <= rnd c <= IZR b.
Proof. intros R A B H. rewrite <- (rnd_int rnd a), <- (rnd_int rnd b) by auto. destruct R as (M & _). split; apply M; lra. Qed.
Lemma rnd01 rnd c : float_rounding rnd -> 0 <= c <= 1 -> 0 <= rnd c <= 1.
Proof. intros R H. apply (rnd_between rnd 0 1); auto; lia. Qed.
Lemma exact_rounding : float_rounding exact.
Proof. split; unfold exact; auto. Qed.

Lemma int_ok_true z : (- 2 ^ 31 <= z < 2 ^ 31)%Z -> int_ok z = true.
Proof. intros H. unfold int_ok. rewrite andb_true_iff. lia. Qed.
Lemma cast_ok z : (0 <= z < 2 ^ 31)%Z -> cast_int z = Ok z.
Proof. intros H. unfold cast_int. rewrite int_ok_true; auto. lia. Qed.
Lemma wrap_ok rnd m c : float_rounding rnd -> wrappable m c -> exists u, wrap_coordinate rnd m c = Ok u /\ 0 <= u <= 1.
Proof.
  intros R W. destruct m; cbn [wrap_coordinate].
  - eexists. split; [reflexivity|]. apply clamp01_bounds.
  - eexists. split; [reflexivity|]. pose proof (fmod1_bounds c). destruct (Rltb (fmod1 c) 0) eqn:E; rb; [|lra]. apply rnd01; auto. lra.
  - cbn in W. pose proof (Rabs_pos c). rewrite truncz_pos by auto. rewrite cast_ok.
    + cbn [obind]. eexists. split; [reflexivity|]. apply clamp01_bounds.
    + split; [apply flr_nonneg; auto|]. pose proof (flr_spec (Rabs c)). apply lt_IZR. lra.
Qed.
Lemma texel_range rnd u n : float_rounding rnd -> 0 <= u <= 1 -> (1 <= n <= 2 ^ 24 + 1)%Z -> 0 <= texel rnd u n <= IZR (n - 1).
Proof.
  intros R U N. unfold texel. rewrite (rnd_int rnd (n - 1)) by (auto; lia). apply (rnd_between rnd 0 (n - 1)); auto; try lia.
  assert (0 <= IZR (n - 1)) by (apply IZR_le; lia). nra.
Qed.
Definition small {A} (im : img A) : Prop := (im_w im <= 2 ^ 24 + 1)%Z /\ (im_h im <= 2 ^ 24 + 1)%Z.

Lemma nonempty_dims {A} (im : img A) a l : valid im -> im_data im = a :: l -> (1 <= im_w im)%Z /\ (1 <= im_h im)%Z.
Proof. intros (W & H & L & B) E. rewrite E in L. cbn [List.length] in L. nia. Qed.
Lemma nth_In' {A} (l : list A) i a : nth_error l i = Some a -> In a l.
Proof. apply nth_error_In. Qed.

Lemma nearest_safe {A} rnd m (im : img A) d u v : float_rounding rnd -> valid im -> small im -> im_data im <> [] -> wrappable m u -> wrappable m v ->
  exists p, sample_nearest rnd m im d u v = Ok p /\ In p (im_data im).
Proof.
  intros R V (S1 & S2) NE WU WV. unfold sample_nearest. destruct (im_data im) as [|a l] eqn:E; [congruence|]. rewrite <- E.
  destruct (nonempty_dims im a l V E) as (W1 & H1).
  destruct (wrap_ok rnd m u R WU) as (u' & -> & U). destruct (wrap_ok rnd m v R WV) as (v' & -> & V'). cbn [obind].
  pose proof (texel_range rnd u' (im_w im) R U ltac:(lia)) as TX. pose proof (texel_range rnd v' (im_h im) R V' ltac:(lia)) as TY.
  assert (X : (0 <= roundz (texel rnd u' (im_w im)) <= im_w im - 1)%Z).
  { rewrite roundz_pos by lra. split; [apply flr_nonneg; lra|]. apply flr_le. lra. }
  assert (Y : (0 <= roundz (texel rnd v' (im_h im)) <= im_h im - 1)%Z).
  { rewrite roundz_pos by lra. split; [apply flr_nonneg; lra|]. apply flr_le. lra. }
  rewrite !cast_ok by lia. cbn [obind].
  destruct (pix_ok im (Z.min (roundz (texel rnd u' (im_w im))) (im_w im - 1)) (Z.min (roundz (texel rnd v' (im_h im))) (im_h im - 1)) V) as (p & P & ->); [split; lia|].
  exists p. split; auto. apply nth_error_In in P. auto.
Qed.

Lemma taps_safe {A} rnd m (im : img A) u v : float_rounding rnd -> valid im -> small im -> im_data im <> [] -> wrappable m u -> wrappable m v ->
  exists fx fy p00 p10 p01 p11, bilinear_taps rnd m im u v = Ok (fx, fy, (p00, p10, (p01, p11)))
  /\ 0 <= fx <= 1 /\ 0 <= fy <= 1 /\ In p00 (im_data im) /\ In p10 (im_data im) /\ In p01 (im_data im) /\ In p11 (im_data im).
Proof.
  intros R V (S1 & S2) NE WU WV. unfold bilinear_taps. destruct (im_data im) as [|a l] eqn:E; [congruence|]. rewrite <- E.
  destruct (nonempty_dims im a l V E) as (W1 & H1).
  destruct (wrap_ok rnd m u R WU) as (u' & -> & U). destruct (wrap_ok rnd m v R WV) as (v' & -> & V'). cbn [obind].
  pose proof (texel_range rnd u' (im_w im) R U ltac:(lia)) as TX. pose proof (texel_range rnd v' (im_h im) R V' ltac:(lia)) as TY.
  rewrite !truncz_pos by lra.
  assert (X : (0 <= flr (texel rnd u' (im_w im)) <= im_w im - 1)%Z).
  { split; [apply flr_nonneg; lra|]. apply flr_le. lra. }
  assert (Y : (0 <= flr (texel rnd v' (im_h im)) <= im_h im - 1)%Z).
  { split; [apply flr_nonneg; lra|]. apply flr_le. lra. }
  pose proof (flr_spec (texel rnd u' (im_w im))). pose proof (flr_spec (texel rnd v' (im_h im))).
  rewrite !cast_ok by lia. cbn [obind].
  set (x0 := flr (texel rnd u' (im_w im))) in *. set (y0 := flr (texel rnd v' (im_h im))) in *.
  set (x1 := Z.min (x0 + 1) (im_w im - 1)). set (y1 := Z.min (y0 + 1) (im_h im - 1)).
  assert (X1 : (0 <= x1 < im_w im)%Z) by (unfold x1; lia). assert (Y1 : (0 <= y1 < im_h im)%Z) by (unfold y1; lia).
  destruct (pix_ok im x0 y0 V) as (p00 & P00 & ->); [split; lia|]. destruct (pix_ok im x1 y0 V) as (p10 & P10 & ->); [split; lia|].
  destruct (pix_ok im x0 y1 V) as (p01 & P01 & ->); [split; lia|]. destruct (pix_ok im x1 y1 V) as (p11 & P11 & ->); [split; lia|].
  cbn [obind]. do 6 eexists. split; [reflexivity|].
  rewrite (rnd_int rnd x0), (rnd_int rnd y0) by (auto; lia).
  split; [apply rnd01; auto; lra|]. split; [apply rnd01; auto; lra|].
  repeat split; eapply nth_error_In; eauto.
Qed.

Lemma blend_bounds fx fy a b c d lo hi : 0 <= fx <= 1 -> 0 <= fy <= 1 -> lo <= a <= hi -> lo <= b <= hi -> lo <= c <= hi -> lo <= d <= hi ->
  lo <= blend exact fx fy a b c d <= hi.
Proof.
  intros X Y A B C D. unfold blend, exact.
  replace (a * (1 - fx) * (1 - fy) + b * fx * (1 - fy) + c * (1 - fx) * fy + d * fx * fy)
    with ((1 - fy) * (a + fx * (b - a)) + fy * (c + fx * (d - c))) by ring.
  assert (lo <= a + fx * (b - a) <= hi) by (split; nra). assert (lo <= c + fx * (d - c) <= hi) by (split; nra).
  set (p := a + fx * (b - a)) in *. set (q := c + fx * (d - c)) in *. split; nra.
Qed.
Lemma truncz_bounds r lo hi : IZR lo <= r <= IZR hi -> (lo <= truncz r <= hi)%Z.
Proof.
  intros H. unfold truncz. destruct (Rleb 0 r) eqn:E; rb.
  - pose proof (flr_spec r). split; [|apply flr_le; lra]. assert (lo < flr r + 1)%Z; [|lia]. apply lt_IZR. rewrite plus_IZR. lra.
  - pose proof (flr_spec (- r)) as [A B].
    assert (Q : (- hi - 1 < flr (- r))%Z) by (apply lt_IZR; rewrite minus_IZR, opp_IZR; lra).
    assert (Q2 : (flr (- r) < - lo + 1)%Z) by (apply lt_IZR; rewrite plus_IZR, opp_IZR; lra). lia.
Qed.

(** Sampling at pixel centres *)
Definition centre (i n : Z) : R := IZR i / IZR (n - 1).
Definition keeps_centre (m : wrap_mode) (i n : Z) : Prop := match m with Repeat => (i < n - 1)%Z | _ => True end.
Lemma centre_bounds i n : (0 <= i < n)%Z -> (2 <= n)%Z -> 0 <= centre i n <= 1 /\ ((i < n - 1)%Z -> centre i n < 1).
Proof.
  intros I N. unfold centre. assert (0 < IZR (n - 1)) by (apply IZR_lt; lia). assert (0 <= IZR i) by (apply IZR_le; lia).
  assert (IZR i <= IZR (n - 1)) by (apply IZR_le; lia). repeat split.
  - apply Rmult_le_pos; [lra|]. left. apply Rinv_0_lt_compat. lra.
  - apply (Rmult_le_reg_r (IZR (n - 1))); auto. unfold Rdiv. rewrite Rmult_assoc, Rinv_l by lra. lra.
  - intros L. apply (Rmult_lt_reg_r (IZR (n - 1))); auto. unfold Rdiv. rewrite Rmult_assoc, Rinv_l by lra. assert (IZR i < IZR (n - 1)) by (apply IZR_lt; lia). lra.
Qed.
Lemma wrap_unit m c : 0 <= c <= 1 -> (m = Repeat -> c < 1) -> wrap_coordinate exact m c = Ok c.
Proof.
  intros C L. destruct m; cbn [wrap_coordinate].
  - rewrite clamp01_id; auto.
  - specialize (L eq_refl). unfold fmod1. rewrite truncz_pos by lra. rewrite (flr_unique c 0) by lra. rewrite Rminus_0_r.
    destruct (Rltb c 0) eqn:E; rb; [lra|]. auto.
  - rewrite Rabs_pos_eq by lra. unfold fmod1. rewrite truncz_pos by lra. destruct (Rlt_dec c 1).
    + rewrite (flr_unique c 0) by lra. rewrite cast_ok by lia. cbn [obind]. change ((0 mod 2 =? 1)%Z) with false. cbv iota. rewrite Rminus_0_r, clamp01_id; auto.
    + assert (c = 1) by lra. subst. rewrite (flr_unique 1 1) by lra. rewrite cast_ok by lia. cbn [obind]. change ((1 mod 2 =? 1)%Z) with true. cbv iota.
      unfold exact. rewrite clamp01_id by lra. f_equal. lra.
Qed.
Lemma wrap_centre m i n : (0 <= i < n)%Z -> (2 <= n)%Z -> keeps_centre m i n -> wrap_coordinate exact m (centre i n) = Ok (centre i n).
Proof.
  intros I N K. destruct (centre_bounds i n I N) as (B & L). apply wrap_unit; auto. intros ->. apply L. exact K.
Qed.
Lemma texel_centre i n : (2 <= n)%Z -> texel exact (centre i n) n = IZR i.
Proof. intros N. unfold texel, exact, centre. assert (0 < IZR (n - 1)) by (apply IZR_lt; lia). field. lra. Qed.
Lemma roundz_IZR z : (0 <= z)%Z -> roundz (IZR z) = z.
Proof. intros. rewrite roundz_pos by (apply IZR_le; auto). apply flr_unique. lra. Qed.
Lemma centre_nearest {A} m (im : img A) d i j : valid im -> (2 <= im_w im)%Z -> (2 <= im_h im)%Z -> inside im i j ->
  keeps_centre m i (im_w im) -> keeps_centre m j (im_h im) ->
  sample_nearest exact m im d (centre i (im_w im)) (centre j (im_h im)) = pix im i j.
Proof.
  intros V W H (I & J) KI KJ. unfold sample_nearest. destruct (im_data im) as [|a l] eqn:E.
  { destruct V as (_ & _ & L & _). rewrite E in L. cbn in L. nia. }
  rewrite !wrap_centre by auto. cbn [obind]. rewrite !texel_centre by auto. rewrite !roundz_IZR by lia.
  assert (im_w im < 2 ^ 31 /\ im_h im < 2 ^ 31)%Z by (destruct V as (_ & _ & _ & B); split; nia).
  rewrite !cast_ok by lia. cbn [obind]. rewrite !Z.min_l by lia. reflexivity.
Qed.
Lemma centre_taps {A} m (im : img A) i j : valid im -> (2 <= im_w im)%Z -> (2 <= im_h im)%Z -> inside im i j ->
  keeps_centre m i (im_w im) -> keeps_centre m j (im_h im) ->
  exists p b c d, pix im i j = Ok p /\ bilinear_taps exact m im (centre i (im_w im)) (centre j (im_h im)) = Ok (0, 0, (p, b, (c, d))).
Proof.
  intros V W H (I & J) KI KJ. unfold bilinear_taps.
  rewrite !wrap_centre by auto. cbn [obind]. rewrite !texel_centre by auto. rewrite !truncz_IZR by lia.
  assert (im_w im < 2 ^ 31 /\ im_h im < 2 ^ 31)%Z by (destruct V as (_ & _ & _ & B); split; nia).
  rewrite !cast_ok by lia. cbn [obind].
  destruct (pix_ok im i j V) as (p00 & P00 & ->); [split; lia|]. destruct (pix_ok im (Z.min (i + 1) (im_w im - 1)) j V) as (p10 & P10 & ->); [split; lia|].
  destruct (pix_ok im i (Z.min (j + 1) (im_h im - 1)) V) as (p01 & P01 & ->); [split; lia|].
  destruct (pix_ok im (Z.min (i + 1) (im_w im - 1)) (Z.min (j + 1) (im_h im - 1)) V) as (p11 & P11 & ->); [split; lia|].
  cbn [obind]. unfold exact. rewrite !Rminus_diag_eq by auto. exists p00, p10, p01, p11. split; reflexivity.
Qed.
Lemma blend_corner a b c d : blend exact 0 0 a b c d = a.
Proof. unfold blend, exact. ring. Qed.
