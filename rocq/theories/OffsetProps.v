(** * C57: the ray origin offset moves to the side of the normal. *)
From Coq Require Import Reals ZArith Lra Lia Psatz.
From Flocq Require Import Core.
From Verif Require Import Common Float32 Vec3 PixelModel OffsetModel OffsetProofs.
Open Scope R_scope.

Definition int32 (b : Z) : Prop := (- 2 ^ 31 <= b < 2 ^ 31)%Z.
(* +0, or a number not larger than 2^127 in size and not a negative subnormal close to zero *)
Definition ordinary (b : Z) (x : R) : Prop := b = 0%Z \/ 0 < x <= 2 ^ 127 \/ - 2 ^ 127 <= x <= - / 2 ^ 141.
(* [r] lies on the side of [x] that [n] points to, strictly when n is not tiny *)
Definition on_side (n x r : R) : Prop := (0 <= n -> x <= r) /\ (n <= 0 -> r <= x) /\ (1 / 256 <= n -> x < r) /\ (n <= - (1 / 256) -> r < x).

(* when the bit arithmetic is defined *)
Theorem C57_defined : forall b n x, int32 b -> value b = Fin x -> Rabs n <= 1 ->
  (offset_coord b n = UB <-> (b = - 2 ^ 31 /\ Ztrunc (fl (256 * n)) < 0)%Z \/ (- 2 ^ 31 < b < - 2 ^ 31 + Ztrunc (fl (256 * n)))%Z).
Proof.
  intros b n x HB HV Hn. destruct (offset_int_ok n Hn) as (k & EK & Ek & KB & _). rewrite <- Ek. unfold offset_coord. rewrite EK. unfold is_neg, near_zero. rewrite HV. unfold int_add. cbv zeta.
  destruct (value_inv b x HB HV) as [(B & ->)|(m & M & -> & ->)].
  - assert (NG: Rltb (mag b) 0 = false) by (apply Rltb_false; rewrite <- mag_0; apply mag_le; lia). rewrite NG.
    rewrite (proj2 (Z.leb_le _ _)), (proj2 (Z.ltb_lt _ _)) by lia. cbn [andb]. split; [discriminate|]. lia.
  - destruct (Z.eq_dec m 0) as [->|NZ].
    + assert (NG: Rltb (- mag 0) 0 = false) by (apply Rltb_false; rewrite mag_0; lra). rewrite NG.
      rewrite (proj2 (Z.ltb_lt (0 - 2 ^ 31 + k) _)) by lia. rewrite Bool.andb_true_r. destruct (Z.leb_spec (- 2 ^ 31) (0 - 2 ^ 31 + k)); split; intros HH; try discriminate; try lia; auto; destruct HH; lia.
    + assert (NG: Rltb (- mag m) 0 = true) by (apply Rltb_true; pose proof (mag_pos m ltac:(lia)); lra). rewrite NG.
      rewrite (proj2 (Z.ltb_lt (m - 2 ^ 31 + - k) _)) by lia. rewrite Bool.andb_true_r. destruct (Z.leb_spec (- 2 ^ 31) (m - 2 ^ 31 + - k)); split; intros HH; try discriminate; try lia; auto; destruct HH; lia.
Qed.
Print Assumptions C57_defined.
Theorem C57_coordinate_partial : forall b n x, int32 b -> value b = Fin x -> ordinary b x -> Rabs n <= 1 ->
  exists r, offset_coord b n = Ok (Fin r) /\ on_side n x r /\ Rabs (r - x) <= Rmax (Rabs x / 2 ^ 14) (/ 2 ^ 15).
Proof.
  intros b n x HB HV HO Hn. destruct (offset_int_ok n Hn) as (k & EK & Ek & KB & K0 & K0' & K1 & K1').
  assert (P127: 2 ^ 127 = mag (254 * 2 ^ 23)) by (rewrite mag_pow by lia; cbn; lra).
  assert (P141: / 2 ^ 141 = mag 256) by (unfold mag; cbn; lra).
  assert (P5: 1 / 32 = mag (122 * 2 ^ 23)) by (rewrite mag_pow by lia; cbn; lra).
  assert (NEAR: forall s, is_float x -> int_add b (if is_neg b then - k else k)%Z = Ok s -> Rabs x < 1 / 32 ->
    exists r, offset_coord b n = Ok (Fin r) /\ on_side n x r /\ Rabs (r - x) <= Rmax (Rabs x / 2 ^ 14) (/ 2 ^ 15)).
  { intros s FX ES HX. exists (fl (x + fl (1 / 65536 * n))). destruct (near_branch x n FX HX Hn) as (A & B & C & D & E).
    split; [|split; [split; [exact A|split; [exact B|split; [exact C|exact D]]]|eapply Rle_trans; [exact E|apply Rmax_r]]].
    unfold offset_coord. rewrite EK, ES. unfold near_zero. rewrite HV, (proj2 (Rltb_true _ _)) by auto. reflexivity. }
  destruct (value_inv b x HB HV) as [(B & EX)|(m & M & EB & EX)].
  - assert (X0: 0 <= x) by (rewrite EX, <- mag_0; apply mag_le; lia).
    assert (BU: (b <= 254 * 2 ^ 23)%Z). { destruct (Z.le_gt_cases b (254 * 2 ^ 23)); auto. pose proof (mag_lt (254 * 2 ^ 23) b ltac:(lia)). assert (x <= 2 ^ 127) by (destruct HO as [->|[?|?]]; [lia|lra|lra]). lra. }
    assert (NG: is_neg b = false) by (unfold is_neg; rewrite HV; apply Rltb_false; auto).
    assert (ES: int_add b (if is_neg b then - k else k)%Z = Ok (b + k)%Z).
    { rewrite NG. unfold int_add. cbv zeta. rewrite (proj2 (Z.leb_le _ _)), (proj2 (Z.ltb_lt _ _)) by lia. reflexivity. }
    destruct (Rlt_dec (Rabs x) (1 / 32)) as [L|G]; [apply (NEAR _ ltac:(rewrite EX; apply mag_is_float; lia) ES L)|].
    rewrite Rabs_pos_eq in G by auto. assert (BL: (122 * 2 ^ 23 <= b)%Z) by (destruct (Z.le_gt_cases (122 * 2 ^ 23) b); auto; pose proof (mag_lt b (122 * 2 ^ 23) ltac:(lia)); lra).
    exists (mag (b + k)). split; [|split].
    + unfold offset_coord. rewrite EK, ES. unfold near_zero. rewrite HV, Rabs_pos_eq, (proj2 (Rltb_false _ _)) by lra. rewrite value_nonneg by lia. reflexivity.
    + rewrite EX. split; [intros; apply mag_le; specialize (K0 H); lia|]. split; [intros; apply mag_le; specialize (K0' H); lia|]. split; [intros; apply mag_lt; specialize (K1 H); lia|intros; apply mag_lt; specialize (K1' H); lia].
    + rewrite EX. eapply Rle_trans; [apply mag_rel; lia|]. rewrite (Rabs_pos_eq (mag b)) by lra. apply Rmax_l.
  - assert (MP: 0 <= mag m) by (rewrite <- mag_0; apply mag_le; lia).
    assert (MB: (256 <= m <= 254 * 2 ^ 23)%Z).
    { destruct HO as [->|[?|(LO & HI)]]; [lia|lra|]. split.
      - destruct (Z.le_gt_cases 256 m); auto. pose proof (mag_lt m 256 ltac:(lia)). lra.
      - destruct (Z.le_gt_cases m (254 * 2 ^ 23)); auto. pose proof (mag_lt (254 * 2 ^ 23) m ltac:(lia)). lra. }
    pose proof (mag_pos m ltac:(lia)) as MP'. assert (NG: is_neg b = true) by (unfold is_neg; rewrite HV; apply Rltb_true; lra).
    assert (ES: int_add b (if is_neg b then - k else k)%Z = Ok (m + - k - 2 ^ 31)%Z).
    { rewrite NG. unfold int_add. cbv zeta. rewrite (proj2 (Z.leb_le _ _)), (proj2 (Z.ltb_lt _ _)) by lia. cbn [andb]. f_equal. lia. }
    destruct (Rlt_dec (Rabs x) (1 / 32)) as [L|G]; [apply (NEAR _ ltac:(rewrite EX; apply opp_float, mag_is_float; lia) ES L)|].
    rewrite EX, Rabs_Ropp, Rabs_pos_eq in G by auto. assert (BL: (122 * 2 ^ 23 <= m)%Z) by (destruct (Z.le_gt_cases (122 * 2 ^ 23) m); auto; pose proof (mag_lt m (122 * 2 ^ 23) ltac:(lia)); lra).
    exists (- mag (m + - k)). split; [|split].
    + unfold offset_coord. rewrite EK, ES. unfold near_zero. rewrite HV, EX, Rabs_Ropp, Rabs_pos_eq, (proj2 (Rltb_false _ _)) by lra. rewrite value_neg by lia. reflexivity.
    + rewrite EX. split; [intros; apply Ropp_le_contravar, mag_le; specialize (K0 H); lia|]. split; [intros; apply Ropp_le_contravar, mag_le; specialize (K0' H); lia|]. split; [intros; apply Ropp_lt_contravar, mag_lt; specialize (K1 H); lia|intros; apply Ropp_lt_contravar, mag_lt; specialize (K1' H); lia].
    + rewrite EX. replace (- mag (m + - k) - - mag m) with (- (mag (m + - k) - mag m)) by ring. rewrite !Rabs_Ropp. eapply Rle_trans; [apply mag_rel; lia|]. rewrite (Rabs_pos_eq (mag m)) by lra. apply Rmax_l.
Qed.
Print Assumptions C57_coordinate_partial.
Example C57_case : int32 0x3F800000 /\ value 0x3F800000 = Fin 1 /\ ordinary 0x3F800000 1 /\ int32 (-0x40800000) /\ value (-0x40800000) = Fin (-1) /\ ordinary (-0x40800000) (-1).
Proof.
  assert (M1: mag (127 * 2 ^ 23) = 1) by (rewrite mag_pow by lia; cbn; lra).
  split; [unfold int32; lia|]. split; [change 0x3F800000%Z with (127 * 2 ^ 23)%Z; rewrite value_nonneg, M1 by lia; reflexivity|]. split; [right; left; lra|].
  split; [unfold int32; lia|]. split; [change (-0x40800000)%Z with (127 * 2 ^ 23 - 2 ^ 31)%Z; rewrite value_neg, M1 by lia; f_equal; lra|]. right; right. lra.
Qed.
(* the whole point moves to the front of the surface *)
Theorem C57_point_partial : forall bx by' bz x y z n, int32 bx -> int32 by' -> int32 bz -> value bx = Fin x -> value by' = Fin y -> value bz = Fin z ->
  ordinary bx x -> ordinary by' y -> ordinary bz z -> dot n n = 1 ->
  exists rx ry rz, offset_intersection bx by' bz n = Ok (Fin rx, Fin ry, Fin rz) /\ 0 < dot n (vsub (V3 rx ry rz) (V3 x y z)).
Proof.
  intros bx by' bz x y z n Ix Iy Iz Vx Vy Vz Ox Oy Oz Hn. unfold dot in Hn.
  assert (SQ: forall a, a * a <= 1 -> Rabs a <= 1) by (intros a Ha; apply Rabs_le; split; nra).
  destruct (C57_coordinate_partial bx (vx n) x Ix Vx Ox ltac:(apply SQ; nra)) as (rx & Ex & (Ax & Bx & Cx & Dx) & _).
  destruct (C57_coordinate_partial by' (vy n) y Iy Vy Oy ltac:(apply SQ; nra)) as (ry & Ey & (Ay & By & Cy & Dy) & _).
  destruct (C57_coordinate_partial bz (vz n) z Iz Vz Oz ltac:(apply SQ; nra)) as (rz & Ez & (Az & Bz & Cz & Dz) & _).
  exists rx, ry, rz. split; [unfold offset_intersection; rewrite Ex, Ey, Ez; reflexivity|].
  unfold dot, vsub; cbn.
  assert (NN: forall a p q, (0 <= a -> p <= q) -> (a <= 0 -> q <= p) -> (1 / 256 <= a -> p < q) -> (a <= - (1 / 256) -> q < p) -> 0 <= a * (q - p) /\ (1 / 65536 <= a * a -> 0 < a * (q - p))).
  { intros a p q H1 H2 H3 H4. destruct (Rle_dec 0 a) as [P|P].
    - specialize (H1 P). split; [apply Rmult_le_pos; lra|]. intros Q. assert (1 / 256 <= a) by nra. specialize (H3 H). apply Rmult_lt_0_compat; lra.
    - assert (H2' := H2 ltac:(lra)). replace (a * (q - p)) with ((- a) * (p - q)) by ring. split; [apply Rmult_le_pos; lra|]. intros Q. assert (a <= - (1 / 256)) by nra. specialize (H4 H). apply Rmult_lt_0_compat; lra. }
  destruct (NN _ _ _ Ax Bx Cx Dx) as (Nx & Sx). destruct (NN _ _ _ Ay By Cy Dy) as (Ny & Sy). destruct (NN _ _ _ Az Bz Cz Dz) as (Nz & Sz).
  destruct (Rle_dec (1 / 65536) (vx n * vx n)) as [?|?]; [specialize (Sx r); lra|]. destruct (Rle_dec (1 / 65536) (vy n * vy n)) as [?|?]; [specialize (Sy r); lra|].
  specialize (Sz ltac:(lra)). lra.
Qed.
Print Assumptions C57_point_partial.
(* refuted at -0 and at small negative numbers: the bit sum that is computed for every coordinate overflows a signed integer *)
Theorem C57_refuted_minus_zero : value (- 2 ^ 31) = Fin (- 0) /\ offset_coord (- 2 ^ 31) (-1) = UB /\ offset_coord (- 2 ^ 31 + 255) 1 = UB.
Proof.
  assert (V0: value (- 2 ^ 31) = Fin (- 0)) by (change (- 2 ^ 31)%Z with (0 - 2 ^ 31)%Z; rewrite value_neg by lia; rewrite mag_0; reflexivity). split; [exact V0|].
  assert (T: forall z, (Z.abs z < 2 ^ 24)%Z -> Ztrunc (fl (IZR z)) = z) by (intros z Hz; rewrite fl_id by (apply float_int; auto); apply Ztrunc_IZR). split.
  - apply (C57_defined _ _ (- 0)); [unfold int32; lia|exact V0|apply Rabs_le; lra|]. left. split; [lia|]. replace (256 * -1) with (IZR (-256)) by lra. rewrite T; lia.
  - apply (C57_defined _ _ (- mag 255)); [unfold int32; lia|change (- 2 ^ 31 + 255)%Z with (255 - 2 ^ 31)%Z; apply value_neg; lia|apply Rabs_le; lra|]. right. replace (256 * 1) with (IZR 256) by lra. rewrite T; lia.
Qed.
Print Assumptions C57_refuted_minus_zero.
(* refuted at the largest numbers: the bits run into the patterns of infinity and NaN *)
Theorem C57_refuted_largest : exists b x, int32 b /\ value b = Fin x /\ 2 ^ 127 < x /\ offset_coord b 1 = Ok NonFinite.
Proof.
  exists (255 * 2 ^ 23 - 1)%Z, (mag (255 * 2 ^ 23 - 1)). split; [unfold int32; lia|]. split; [apply value_nonneg; lia|].
  assert (G: 2 ^ 127 < mag (255 * 2 ^ 23 - 1)). { replace (2 ^ 127) with (mag (254 * 2 ^ 23)) by (rewrite mag_pow by lia; cbn; lra). apply mag_lt. lia. }
  split; [exact G|]. assert (Rabs 1 <= 1) by (rewrite Rabs_R1; lra). destruct (offset_int_ok 1 H) as (k & EK & Ek & _).
  assert (K: k = 256%Z). { rewrite Ek. replace (256 * 1) with (IZR 256) by lra. rewrite fl_id by (apply float_int; lia). apply Ztrunc_IZR. } subst k. rewrite K in EK.
  unfold offset_coord. rewrite EK. unfold is_neg, near_zero. rewrite value_nonneg by lia. rewrite (proj2 (Rltb_false _ 0)) by lra. rewrite Rabs_pos_eq by lra. rewrite (proj2 (Rltb_false _ (1 / 32))) by lra.
  unfold int_add. cbv zeta. rewrite (proj2 (Z.leb_le _ _)), (proj2 (Z.ltb_lt _ _)) by lia. cbn [andb]. f_equal.
Qed.
Print Assumptions C57_refuted_largest.
