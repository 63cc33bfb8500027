(* integrate_over_data: the averages are integrals of the sampled curve. *)
From Coq Require Import Reals List Lra Lia.
From Verif Require Import Common Vec3 SpectralModel SpectralSpec.
From Coquelicot Require Import Coquelicot.
Import ListNotations.
Open Scope R_scope.

Lemma ascending_iff w : ascending w = true <-> ascending_wavelengths w.
Proof.
  unfold ascending_wavelengths. induction w as [|a [|b t] IH].
  - cbn. split; [intros _ i Hi; lia|auto].
  - cbn. split; [intros _ i Hi; lia|auto].
  - cbn [ascending]. rewrite Bool.andb_true_iff, Rltb_true, IH. split.
    + intros [H1 H2] [|i] Hi; [exact H1|]. apply (H2 i). cbn in *; lia.
    + intros H. split; [exact (H 0%nat ltac:(cbn; lia))|]. intros i Hi. apply (H (S i)). cbn in *; lia.
Qed.

Lemma asc_lt w : ascending_wavelengths w -> forall i j, (i < j)%nat -> (j < List.length w)%nat -> nth i w 0 < nth j w 0.
Proof.
  intros H i j Hij Hj. induction j as [|j IH]; [lia|].
  destruct (Nat.eq_dec i j) as [->|Hne]; [apply H; lia|]. apply Rlt_trans with (nth j w 0); [apply IH; lia|apply H; lia].
Qed.
Lemma asc_le w : ascending_wavelengths w -> forall i j, (i <= j)%nat -> (j < List.length w)%nat -> nth i w 0 <= nth j w 0.
Proof. intros H i j Hij Hj. destruct (Nat.eq_dec i j) as [->|Hne]; [lra|]. left. apply asc_lt; auto; lia. Qed.

Lemma lower_bound_loop_spec w t : ascending_wavelengths w -> forall fuel first count, (count <= fuel)%nat -> (first + count <= List.length w)%nat ->
  (forall i, (i < first)%nat -> nth i w 0 < t) -> (forall i, (first + count <= i < List.length w)%nat -> t <= nth i w 0) ->
  let r := lower_bound_loop w t fuel first count in
  (r <= List.length w)%nat /\ (forall i, (i < r)%nat -> nth i w 0 < t) /\ (forall i, (r <= i < List.length w)%nat -> t <= nth i w 0).
Proof.
  intros Hasc. induction fuel as [|f IH]; intros first count Hc Hl Hlo Hhi; cbn.
  - replace count with 0%nat in * by lia. rewrite Nat.add_0_r in *. auto.
  - destruct (Nat.eqb_spec count 0) as [->|Hne]; [rewrite Nat.add_0_r in *; auto|].
    assert (Hd: (count / 2 < count)%nat) by (apply Nat.div_lt; lia).
    change (fst (Nat.divmod count 1 0 1)) with (Nat.div count 2).
    destruct (Rltb (nth (first + count / 2) w 0) t) eqn:E; rb.
    + apply IH; try lia.
      * intros i Hi. apply Rle_lt_trans with (nth (first + count / 2) w 0); auto. apply asc_le; auto; lia.
      * intros i Hi. apply Hhi. lia.
    + apply IH; try lia; auto.
      intros i Hi. apply Rle_trans with (nth (first + count / 2) w 0); auto. apply asc_le; auto; lia.
Qed.
Lemma lower_bound_spec w t : ascending_wavelengths w -> let r := lower_bound w t in
  (r <= List.length w)%nat /\ (forall i, (i < r)%nat -> nth i w 0 < t) /\ (forall i, (r <= i < List.length w)%nat -> t <= nth i w 0).
Proof. intros H. apply lower_bound_loop_spec; auto; intros; lia. Qed.

Lemma curve_cons a y b z t x : curve ((a, y) :: (b, z) :: t) x = if Rlt_dec x b then y + (z - y) * ((x - a) / (b - a)) else curve ((b, z) :: t) x.
Proof. reflexivity. Qed.
(* the curve on a segment and after the last sample *)
Lemma curve_seg w : ascending_wavelengths w -> forall v, List.length v = List.length w -> forall i x, (S i < List.length w)%nat -> nth i w 0 <= x <= nth (S i) w 0 ->
  curve (combine w v) x = lerp_value w v i (S i) x.
Proof.
  induction w as [|a w IH]; intros Hasc v Hv i x Hi Hx; [cbn in Hi; lia|].
  destruct v as [|y v]; [discriminate|]. destruct w as [|b w]; [cbn in Hi; lia|]. destruct v as [|z v]; [discriminate|].
  assert (Hasc': ascending_wavelengths (b :: w)) by (intros j Hj; apply (Hasc (S j)); cbn in *; lia).
  assert (Hab: a < b) by (apply (Hasc 0%nat); cbn; lia).
  cbn [combine]. rewrite curve_cons. destruct i as [|i].
  - cbn [nth] in Hx. destruct (Rlt_dec x b) as [Hlt|Hge].
    + unfold lerp_value; cbn [nth]. field. lra.
    + assert (x = b) as -> by lra. unfold lerp_value; cbn [nth].
      destruct w as [|c w]; destruct v as [|u v]; try discriminate; cbn [combine curve].
      * field; lra.
      * assert (b < c) by (apply (Hasc' 0%nat); cbn; lia). destruct (Rlt_dec b c); [|lra]. field; lra.
  - destruct (Rlt_dec x b) as [Hlt|Hge].
    + assert (b <= nth i (b :: w) 0) by (apply (asc_le (b :: w) Hasc' 0 i); cbn in *; lia). change (nth (S i) (a :: b :: w) 0) with (nth i (b :: w) 0) in Hx. lra.
    + change (lerp_value (a :: b :: w) (y :: z :: v) (S i) (S (S i)) x) with (lerp_value (b :: w) (z :: v) i (S i) x).
      change ((b, z) :: combine w v) with (combine (b :: w) (z :: v)). apply IH; auto. cbn in *; lia.
Qed.
Lemma curve_after w : ascending_wavelengths w -> forall v, List.length v = List.length w -> forall x, (0 < List.length w)%nat -> nth (List.length w - 1) w 0 <= x ->
  curve (combine w v) x = nth (List.length w - 1) v 0.
Proof.
  induction w as [|a w IH]; intros Hasc v Hv x Hl Hx; [cbn in Hl; lia|].
  destruct v as [|y v]; [discriminate|]. destruct w as [|b w]; [destruct v; [reflexivity|discriminate]|]. destruct v as [|z v]; [discriminate|].
  assert (Hasc': ascending_wavelengths (b :: w)) by (intros j Hj; apply (Hasc (S j)); cbn in *; lia).
  cbn [combine]. rewrite curve_cons. replace (List.length (a :: b :: w) - 1)%nat with (S (List.length (b :: w) - 1)) in * by (cbn; lia).
  change (nth (S (List.length (b :: w) - 1)) (a :: b :: w) 0) with (nth (List.length (b :: w) - 1) (b :: w) 0) in Hx.
  assert (b <= nth (List.length (b :: w) - 1) (b :: w) 0) by (apply (asc_le (b :: w) Hasc' 0); cbn; lia).
  destruct (Rlt_dec x b); [lra|]. cbn [nth]. change ((b, z) :: combine w v) with (combine (b :: w) (z :: v)). apply (IH Hasc' (z :: v)); auto; cbn; lia.
Qed.
Lemma curve_knot w : ascending_wavelengths w -> forall v, List.length v = List.length w -> forall k, (k < List.length w)%nat -> curve (combine w v) (nth k w 0) = nth k v 0.
Proof.
  intros Hasc v Hv k Hk. destruct (Nat.eq_dec (S k) (List.length w)) as [He|Hne].
  - assert (Ek: (List.length w - 1)%nat = k) by lia. rewrite (curve_after w Hasc v Hv); rewrite ?Ek; [reflexivity|lia|lra].
  - assert (nth k w 0 < nth (S k) w 0) by (apply Hasc; lia).
    rewrite (curve_seg w Hasc v Hv k) by (try lia; lra). unfold lerp_value. field. lra.
Qed.

(* a function that is affine on [a, b] integrates to the trapezoid *)
Lemma affine_int f m c a b : a <= b -> (forall x, a <= x <= b -> f x = m * x + c) -> is_RInt f a b (/ 2 * (f a + f b) * (b - a)).
Proof.
  intros Hab H. apply (is_RInt_ext (fun x => m * x + c)).
  - intros x Hx. rewrite Rmin_left, Rmax_right in Hx by lra. symmetry; apply H; lra.
  - rewrite (H a), (H b) by lra.
    replace (/ 2 * (m * a + c + (m * b + c)) * (b - a)) with (minus (m * b ^ 2 / 2 + c * b) (m * a ^ 2 / 2 + c * a)) by (unfold minus, plus, opp; cbn; field).
    apply (is_RInt_derive (fun x => m * x ^ 2 / 2 + c * x)).
    + intros x _. auto_derive; auto. field.
    + intros x _. apply (ex_derive_continuous (fun x => m * x + c)). auto_derive; auto.
Qed.
Definition trap (f : R -> R) (a b : R) := is_RInt f a b (/ 2 * (f a + f b) * (b - a)).
Lemma seg_trap w v i a b : ascending_wavelengths w -> List.length v = List.length w -> (S i < List.length w)%nat ->
  nth i w 0 <= a -> a <= b -> b <= nth (S i) w 0 -> trap (curve (combine w v)) a b.
Proof.
  intros Hasc Hv Hi Ha Hab Hb. assert (Hw: nth i w 0 < nth (S i) w 0) by (apply Hasc; lia).
  apply (affine_int _ ((nth (S i) v 0 - nth i v 0) / (nth (S i) w 0 - nth i w 0)) (nth i v 0 - (nth (S i) v 0 - nth i v 0) / (nth (S i) w 0 - nth i w 0) * nth i w 0)); auto.
  intros x Hx. rewrite (curve_seg w Hasc v Hv i) by (try lia; lra). unfold lerp_value. field. lra.
Qed.
Lemma after_trap w v a b : ascending_wavelengths w -> List.length v = List.length w -> (0 < List.length w)%nat ->
  nth (List.length w - 1) w 0 <= a -> a <= b -> trap (curve (combine w v)) a b.
Proof.
  intros Hasc Hv Hl Ha Hab. apply (affine_int _ 0 (nth (List.length w - 1) v 0)); auto.
  intros x Hx. rewrite (curve_after w Hasc v Hv) by (try lia; lra). ring.
Qed.

Lemma walk_spec w v hi start : ascending_wavelengths w -> List.length v = List.length w -> forall fuel k I p,
  (1 <= k)%nat -> (k <= List.length w)%nat -> (List.length w - k <= fuel)%nat ->
  nth (k - 1) w 0 <= p -> ((k < List.length w)%nat -> p <= nth k w 0) -> p < hi ->
  is_RInt (curve (combine w v)) start p I ->
  exists I' p', walk w v hi fuel k I (Some (p, curve (combine w v) p)) = (I', Some (p', curve (combine w v) p')) /\
    p <= p' /\ p' < hi /\ is_RInt (curve (combine w v)) start p' I' /\ trap (curve (combine w v)) p' hi.
Proof.
  intros Hasc Hv. induction fuel as [|f IH]; intros k I p Hk1 Hk Hf Hp1 Hp2 Hph HI; cbn [walk].
  - exists I, p. split; [reflexivity|]. split; [lra|]. split; [auto|]. split; [auto|].
    apply after_trap; auto; try lia; [|lra]. replace (List.length w - 1)%nat with (k - 1)%nat by lia. exact Hp1.
  - destruct (Nat.ltb_spec k (List.length w)) as [Hlt|Hge]; cbn [andb].
    + specialize (Hp2 Hlt). destruct (Rltb (nth k w 0) hi) eqn:E; rb.
      * cbn [fst snd].
        assert (HT: trap (curve (combine w v)) p (nth k w 0)).
        { apply (seg_trap w v (k - 1)); auto; try lia. replace (S (k - 1)) with k by lia. lra. }
        unfold trap in HT. rewrite (curve_knot w Hasc v Hv k Hlt) in HT.
        rewrite <- (curve_knot w Hasc v Hv k Hlt).
        destruct (IH (k + 1)%nat (I + / 2 * (curve (combine w v) p + nth k v 0) * (nth k w 0 - p)) (nth k w 0)) as (I' & p' & E1 & E2 & E3 & E4 & E5); try lia; auto.
        -- replace (k + 1 - 1)%nat with k by lia. lra.
        -- intros Hl. left. replace (k + 1)%nat with (S k) by lia. apply Hasc. lia.
        -- apply (is_RInt_Chasles _ start p (nth k w 0) I); auto.
        -- exists I', p'. rewrite (curve_knot w Hasc v Hv k Hlt) in *. split; [exact E1|]. split; [lra|auto].
      * exists I, p. split; [reflexivity|]. split; [lra|]. split; [auto|]. split; [auto|].
        apply (seg_trap w v (k - 1)); auto; try lia; [lra|]. replace (S (k - 1)) with k by lia. lra.
    + exists I, p. split; [reflexivity|]. split; [lra|]. split; [auto|]. split; [auto|].
      apply after_trap; auto; try lia; [|lra]. replace (List.length w - 1)%nat with (k - 1)%nat by lia. exact Hp1.
Qed.

Lemma average_bin_spec w v lo hi : ascending_wavelengths w -> List.length v = List.length w -> (0 < List.length w)%nat -> lo < hi ->
  ((nth (List.length w - 1) w 0 < lo \/ hi <= nth 0 w 0) -> average_bin w v lo hi = 0) /\
  (lo <= nth (List.length w - 1) w 0 -> nth 0 w 0 < hi -> is_RInt (curve (combine w v)) (Rmax lo (nth 0 w 0)) hi (average_bin w v lo hi * (hi - lo))).
Proof.
  intros Hasc Hv Hl Hlh. unfold average_bin.
  pose proof (lower_bound_spec w lo Hasc) as (L1 & L2 & L3). set (i := lower_bound w lo) in *.
  pose proof (lower_bound_spec w hi Hasc) as (J1 & J2 & J3). set (j := lower_bound w hi) in *.
  split.
  - intros [H|H].
    + destruct (Nat.eqb_spec i (List.length w)) as [_|Hne]; [reflexivity|]. exfalso.
      assert (lo <= nth (List.length w - 1) w 0) by (apply L3; lia). lra.
    + assert (i = 0)%nat as ->. { destruct i as [|i']; auto. specialize (L2 0%nat ltac:(lia)). lra. }
      destruct (Nat.eqb_spec 0 (List.length w)) as [_|_]; [reflexivity|].
      replace (Rleb hi (nth 0 w 0)) with true by (symmetry; apply Rleb_true; lra). reflexivity.
  - intros H1 H2. assert (Hi: (i < List.length w)%nat).
    { destruct (Nat.eq_dec i (List.length w)) as [E|]; [|lia]. specialize (L2 (List.length w - 1)%nat ltac:(lia)). lra. }
    destruct (Nat.eqb_spec i (List.length w)) as [E|_]; [lia|].
    destruct (Rleb hi (nth i w 0) && Nat.eqb i 0) eqn:E0.
    { apply Bool.andb_true_iff in E0 as [E0 E1]. rb. apply Nat.eqb_eq in E1. rewrite E1 in E0. lra. }
    destruct (Nat.ltb 0 i && Rleb hi (nth i w 0)) eqn:E1.
    { apply Bool.andb_true_iff in E1 as [E1 E2]. rb. apply Nat.ltb_lt in E1.
      assert (nth (i - 1) w 0 < lo) by (apply L2; lia).
      assert (nth 0 w 0 <= nth (i - 1) w 0) by (apply asc_le; auto; lia).
      rewrite Rmax_left by lra.
      assert (HT: trap (curve (combine w v)) lo hi).
      { apply (seg_trap w v (i - 1)); auto; try lia; try lra. replace (S (i - 1)) with i by lia. lra. }
      unfold trap in HT. rewrite !(curve_seg w Hasc v Hv (i - 1)) in HT by (try lia; replace (S (i - 1)) with i by lia; lra).
      replace (S (i - 1)) with i in HT by lia. exact HT. }
    assert (Hwi: nth i w 0 < hi).
    { destruct (Nat.ltb_spec 0 i) as [Hz|Hz]; cbn in E1; [rb; auto|]. replace i with 0%nat by lia. auto. }
    (* the right-hand value *)
    assert (Hj0: (0 < j)%nat). { destruct j as [|j']; [|lia]. specialize (J3 0%nat ltac:(lia)). lra. }
    assert (HR: (if Nat.ltb j (List.length w) then lerp_value w v (j - 1) j hi else nth (List.length w - 1) v 0) = curve (combine w v) hi).
    { destruct (Nat.ltb_spec j (List.length w)) as [Hlt|Hge].
      - rewrite (curve_seg w Hasc v Hv (j - 1)); try lia; replace (S (j - 1)) with j by lia; [reflexivity|].
        split; [left; apply J2; lia|apply J3; lia].
      - rewrite (curve_after w Hasc v Hv); auto. left. apply J2. lia. }
    rewrite HR. clear HR.
    assert (HW: forall Z, Z <> 0 -> forall A, A / Z * Z = A) by (intros; field; auto).
    destruct (Nat.ltb 0 i && Rltb lo (nth i w 0)) eqn:E2.
    + apply Bool.andb_true_iff in E2 as [E2 E3]. rb. apply Nat.ltb_lt in E2.
      assert (nth (i - 1) w 0 < lo) by (apply L2; lia).
      assert (nth 0 w 0 <= nth (i - 1) w 0) by (apply asc_le; auto; lia).
      rewrite Rmax_left by lra.
      replace (lerp_value w v (i - 1) i lo) with (curve (combine w v) lo).
      2:{ rewrite (curve_seg w Hasc v Hv (i - 1)); try lia; replace (S (i - 1)) with i by lia; [reflexivity|lra]. }
      destruct (walk_spec w v hi lo Hasc Hv (List.length w) i 0 lo) as (I' & p' & -> & Hp1 & Hp2 & HI & HT); try lia; try lra; [exact (is_RInt_point (V:=R_NormedModule) _ _)|].
      cbn [fst snd]. rewrite HW by lra. apply (is_RInt_Chasles _ lo p' hi I' _ HI). exact HT.
    + (* start at the sample w_i *)
      assert (Hmax: Rmax lo (nth 0 w 0) = nth i w 0).
      { destruct (Nat.ltb_spec 0 i) as [Hz|Hz]; cbn in E2.
        - rb. assert (lo <= nth i w 0) by (apply L3; lia). assert (nth 0 w 0 < nth i w 0) by (apply asc_lt; auto). rewrite Rmax_left; lra.
        - replace i with 0%nat by lia. apply Rmax_right. apply L3. lia. }
      rewrite Hmax. destruct (List.length w) as [|M] eqn:EM; [lia|]. cbn [walk]. rewrite EM.
      destruct (Nat.ltb_spec i (S M)) as [_|]; [|lia].
      replace (Rltb (nth i w 0) hi) with true by (symmetry; apply Rltb_true; auto). cbn [andb].
      rewrite <- (curve_knot w Hasc v ltac:(lia) i ltac:(lia)).
      destruct (walk_spec w v hi (nth i w 0) Hasc ltac:(lia) M (i + 1)%nat 0 (nth i w 0)) as (I' & p' & -> & Hp1 & Hp2 & HI & HT); try lia; try lra; auto.
      * replace (i + 1 - 1)%nat with i by lia. lra.
      * intros Hlt. left. replace (i + 1)%nat with (S i) by lia. apply Hasc. lia.
      * exact (is_RInt_point (V:=R_NormedModule) _ _).
      * cbn [fst snd]. rewrite HW by lra. apply (is_RInt_Chasles _ (nth i w 0) p' hi I' _ HI). exact HT.
Qed.
