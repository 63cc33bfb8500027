(* Lemmas about the two convolution paths: finite sums, the convolution theorem for the discrete Fourier transform,
   packing of the padded buffers. *)
From Verif Require Import Common Vec3 ImageModel ImageSpec.
From Coq Require Import Reals Lra Psatz.
Open Scope R_scope.

(** Sums *)
Lemma sumf_ext n f g : (forall i, (i < n)%nat -> f i = g i) -> sumf n f = sumf n g.
Proof. induction n as [|n IH]; intros H; cbn; auto. rewrite IH, H; auto. Qed.
Lemma sumf_zero n : sumf n (fun _ => 0) = 0.
Proof. induction n as [|n IH]; cbn; auto. rewrite IH. ring. Qed.
Lemma sumf_plus n f g : sumf n (fun i => f i + g i) = sumf n f + sumf n g.
Proof. induction n as [|n IH]; cbn; [ring|]. rewrite IH. ring. Qed.
Lemma sumf_scal n c f : sumf n (fun i => c * f i) = c * sumf n f.
Proof. induction n as [|n IH]; cbn; [ring|]. rewrite IH. ring. Qed.
Lemma sumf_swap n m f : sumf n (fun i => sumf m (fun j => f i j)) = sumf m (fun j => sumf n (fun i => f i j)).
Proof. induction n as [|n IH]; cbn; [rewrite sumf_zero; auto|]. rewrite IH, sumf_plus. auto. Qed.
Lemma sumf_delta n a f : (a < n)%nat -> sumf n (fun i => if (i =? a)%nat then f i else 0) = f a.
Proof.
  induction n as [|n IH]; intros H; [lia|]. cbn. destruct (Nat.eqb_spec n a) as [->|N].
  - rewrite (sumf_ext a _ (fun _ => 0)).
    + rewrite sumf_zero. ring.
    + intros i Hi. destruct (Nat.eqb_spec i a); [lia|auto].
  - rewrite IH by lia. ring.
Qed.
Lemma sumf_const n c : sumf n (fun _ => c) = INR n * c.
Proof. induction n as [|n IH]; [cbn; ring|]. cbn [sumf]. rewrite IH, S_INR. ring. Qed.
Lemma sumf_first n f : sumf (S n) f = f O + sumf n (fun i => f (S i)).
Proof. induction n as [|n IH]; [cbn; ring|]. change (sumf (S (S n)) f) with (sumf (S n) f + f (S n)). rewrite IH. cbn [sumf]. ring. Qed.
Lemma sumf_rev n f : sumf n f = sumf n (fun i => f (n - 1 - i)%nat).
Proof.
  revert f. induction n as [|n IH]; intros f; auto. rewrite sumf_first. cbn [sumf]. rewrite (IH (fun i => f (S i))).
  replace (S n - 1 - n)%nat with O by lia. rewrite Rplus_comm. f_equal. apply sumf_ext. intros i Hi. f_equal. lia.
Qed.

Definition S2 (n m : nat) (f : nat -> nat -> R) : R := sumf m (fun j => sumf n (fun i => f i j)).
Lemma S2_ext n m f g : (forall i j, (i < n)%nat -> (j < m)%nat -> f i j = g i j) -> S2 n m f = S2 n m g.
Proof. intros H. unfold S2. apply sumf_ext. intros j Hj. apply sumf_ext. auto. Qed.
Lemma S2_plus n m f g : S2 n m (fun i j => f i j + g i j) = S2 n m f + S2 n m g.
Proof. unfold S2. rewrite <- sumf_plus. apply sumf_ext. intros. apply sumf_plus. Qed.
Lemma S2_scal n m c f : S2 n m (fun i j => c * f i j) = c * S2 n m f.
Proof. unfold S2. rewrite <- sumf_scal. apply sumf_ext. intros. apply sumf_scal. Qed.
Lemma S2_zero n m : S2 n m (fun _ _ => 0) = 0.
Proof. unfold S2. transitivity (sumf m (fun _ => 0)); [|apply sumf_zero]. apply sumf_ext. intros. apply sumf_zero. Qed.
Lemma S2_swap n m p q (f : nat -> nat -> nat -> nat -> R) :
  S2 n m (fun i j => S2 p q (fun k l => f i j k l)) = S2 p q (fun k l => S2 n m (fun i j => f i j k l)).
Proof.
  unfold S2.
  transitivity (sumf m (fun j => sumf q (fun l => sumf n (fun i => sumf p (fun k => f i j k l))))).
  { apply sumf_ext. intros. rewrite sumf_swap. reflexivity. }
  rewrite sumf_swap. apply sumf_ext. intros l _.
  transitivity (sumf m (fun j => sumf p (fun k => sumf n (fun i => f i j k l)))).
  { apply sumf_ext. intros. apply sumf_swap. }
  apply sumf_swap.
Qed.
Lemma S2_mul n m p q f g : S2 n m f * S2 p q g = S2 n m (fun i j => S2 p q (fun k l => f i j * g k l)).
Proof.
  rewrite Rmult_comm, <- S2_scal. apply S2_ext. intros. rewrite Rmult_comm, <- S2_scal. reflexivity.
Qed.
Lemma S2_delta n m a b f : (a < n)%nat -> (b < m)%nat -> S2 n m (fun i j => if ((i =? a) && (j =? b))%nat then f i j else 0) = f a b.
Proof.
  intros A B. unfold S2. rewrite <- (sumf_delta m b (fun j => f a j) B). apply sumf_ext. intros j Hj.
  destruct (Nat.eqb_spec j b) as [->|N].
  - rewrite <- (sumf_delta n a (fun i => f i b) A). apply sumf_ext. intros i Hi. rewrite andb_true_r. reflexivity.
  - transitivity (sumf n (fun _ => 0)); [|apply sumf_zero]. apply sumf_ext. intros i Hi. rewrite andb_false_r. reflexivity.
Qed.

(** Roots of unity *)
Lemma cos_sum_tele n a : 2 * sin (a / 2) * sumf n (fun k => cos (INR k * a)) = sin ((INR n - / 2) * a) + sin (a / 2).
Proof.
  induction n as [|n IH].
  - cbn [sumf INR]. replace ((0 - / 2) * a) with (- (a / 2)) by lra. rewrite sin_neg. ring.
  - cbn [sumf]. rewrite Rmult_plus_distr_l, IH, S_INR.
    replace ((INR n + 1 - / 2) * a) with (INR n * a + a / 2) by lra. replace ((INR n - / 2) * a) with (INR n * a - a / 2) by lra.
    rewrite sin_plus, sin_minus. ring.
Qed.
Lemma sin_sum_tele n a : 2 * sin (a / 2) * sumf n (fun k => sin (INR k * a)) = cos (a / 2) - cos ((INR n - / 2) * a).
Proof.
  induction n as [|n IH].
  - cbn [sumf INR]. replace ((0 - / 2) * a) with (- (a / 2)) by lra. rewrite cos_neg. ring.
  - cbn [sumf]. rewrite Rmult_plus_distr_l, IH, S_INR.
    replace ((INR n + 1 - / 2) * a) with (INR n * a + a / 2) by lra. replace ((INR n - / 2) * a) with (INR n * a - a / 2) by lra.
    rewrite cos_plus, cos_minus. ring.
Qed.
Lemma cos_2kpi (z : Z) : cos (IZR z * (2 * PI)) = 1 /\ sin (IZR z * (2 * PI)) = 0.
Proof.
  assert (N : forall n : nat, cos (INR n * (2 * PI)) = 1 /\ sin (INR n * (2 * PI)) = 0).
  { induction n as [|n (C & S)]; [cbn; rewrite Rmult_0_l, cos_0, sin_0; auto|].
    rewrite S_INR. replace ((INR n + 1) * (2 * PI)) with (INR n * (2 * PI) + 2 * PI) by ring.
    rewrite cos_plus, sin_plus, C, S, cos_2PI, sin_2PI. split; ring. }
  destruct (Z_le_gt_dec 0 z).
  - rewrite <- (Z2Nat.id z) by lia. rewrite <- INR_IZR_INZ. apply N.
  - replace z with (- Z.of_nat (Z.to_nat (- z)))%Z by lia. rewrite opp_IZR, <- INR_IZR_INZ.
    replace (- INR (Z.to_nat (- z)) * (2 * PI)) with (- (INR (Z.to_nat (- z)) * (2 * PI))) by ring.
    rewrite cos_neg, sin_neg. destruct (N (Z.to_nat (- z))) as (-> & ->). split; ring.
Qed.
Definition divides (n : nat) (m : Z) : bool := (m mod Z.of_nat n =? 0)%Z.
Lemma roots_sum n (m : Z) : (0 < n)%nat ->
  sumf n (fun k => cos (INR k * (2 * PI * (IZR m / INR n)))) = (if divides n m then INR n else 0)
  /\ sumf n (fun k => sin (INR k * (2 * PI * (IZR m / INR n)))) = 0.
Proof.
  intros Hn. assert (P : INR n <> 0) by (apply not_0_INR; lia). unfold divides. destruct (Z.eqb_spec (m mod Z.of_nat n) 0) as [D|D].
  - apply Z.mod_divide in D; [|lia]. destruct D as (q & ->). rewrite mult_IZR, <- INR_IZR_INZ.
    assert (E : forall k, INR k * (2 * PI * (IZR q * INR n / INR n)) = IZR (Z.of_nat k * q) * (2 * PI)).
    { intros k. rewrite mult_IZR, <- INR_IZR_INZ. field. auto. }
    split.
    + rewrite (sumf_ext n _ (fun _ => 1)); [rewrite sumf_const; ring|]. intros k _. rewrite E. apply cos_2kpi.
    + rewrite (sumf_ext n _ (fun _ => 0)); [apply sumf_zero|]. intros k _. rewrite E. apply cos_2kpi.
  - set (a := 2 * PI * (IZR m / INR n)).
    assert (S0 : sin (a / 2) <> 0).
    { intros E. apply sin_eq_0_0 in E. destruct E as (q & E). pose proof PI_RGT_0.
      assert (Q : IZR m = IZR (q * Z.of_nat n)).
      { rewrite mult_IZR, <- INR_IZR_INZ. unfold a in E. replace (2 * PI * (IZR m / INR n) / 2) with (IZR m / INR n * PI) in E by (field; auto).
        apply Rmult_eq_reg_r in E; [|lra]. rewrite <- E. field. auto. }
      apply eq_IZR in Q. apply D. rewrite Q. apply Z.mod_mul. lia. }
    assert (NA : (INR n - / 2) * a = IZR m * (2 * PI) - a / 2) by (unfold a; field; auto).
    pose proof (cos_2kpi m) as (C & S). split; apply (Rmult_eq_reg_l (2 * sin (a / 2))); try lra.
    + rewrite cos_sum_tele, NA, sin_minus, C, S. ring.
    + rewrite sin_sum_tele, NA, cos_minus, C, S. ring.
Qed.
Lemma orthogonality pw ph (m n : Z) : (0 < pw)%nat -> (0 < ph)%nat ->
  S2 pw ph (fun k l => cos (2 * PI * (INR k * IZR m / INR pw + INR l * IZR n / INR ph)))
  = if (divides pw m && divides ph n)%bool then INR pw * INR ph else 0.
Proof.
  intros W H. assert (INR pw <> 0) by (apply not_0_INR; lia). assert (INR ph <> 0) by (apply not_0_INR; lia).
  destruct (roots_sum pw m W) as (C1 & S1). destruct (roots_sum ph n H) as (C2 & S2').
  assert (E : S2 pw ph (fun k l => cos (2 * PI * (INR k * IZR m / INR pw + INR l * IZR n / INR ph)))
    = sumf ph (fun l => cos (INR l * (2 * PI * (IZR n / INR ph)))) * sumf pw (fun k => cos (INR k * (2 * PI * (IZR m / INR pw))))
      + (-1) * (sumf ph (fun l => sin (INR l * (2 * PI * (IZR n / INR ph)))) * sumf pw (fun k => sin (INR k * (2 * PI * (IZR m / INR pw)))))).
  { unfold S2. rewrite (Rmult_comm (sumf ph _)), (Rmult_comm (sumf ph (fun l => sin _))), <- !sumf_scal, <- sumf_plus. apply sumf_ext. intros l _.
    rewrite !(Rmult_comm (sumf pw _)), <- !sumf_scal, <- sumf_plus. apply sumf_ext. intros k _.
    replace (2 * PI * (INR k * IZR m / INR pw + INR l * IZR n / INR ph)) with (INR k * (2 * PI * (IZR m / INR pw)) + INR l * (2 * PI * (IZR n / INR ph))) by (field; auto).
    rewrite cos_plus. ring. }
  rewrite E, C1, S1, C2, S2'. destruct (divides pw m), (divides ph n); cbn [andb]; ring.
Qed.

(** Convolution theorem *)
Lemma dft2_parts pw ph a k l : dft2 pw ph a k l =
  (S2 pw ph (fun i j => a i j * cos (phase pw ph k l i j)), S2 pw ph (fun i j => - (a i j * sin (phase pw ph k l i j)))).
Proof.
  unfold dft2, csumf, S2, cmul, cis. cbn [fst snd]. f_equal; apply sumf_ext; intros j _; apply sumf_ext; intros i _.
  - rewrite cos_neg. ring.
  - rewrite sin_neg. ring.
Qed.
Lemma conv_theorem pw ph a b x y : (0 < pw)%nat -> (0 < ph)%nat ->
  idft2 pw ph (fun k l => cmul (dft2 pw ph a k l) (dft2 pw ph b k l)) x y * (1 / INR (pw * ph))
  = S2 pw ph (fun i j => S2 pw ph (fun i' j' => a i j * b i' j' *
      (if (divides pw (Z.of_nat x - Z.of_nat i - Z.of_nat i') && divides ph (Z.of_nat y - Z.of_nat j - Z.of_nat j'))%bool then 1 else 0))).
Proof.
  intros W H. assert (P1 : INR pw <> 0) by (apply not_0_INR; lia). assert (P2 : INR ph <> 0) by (apply not_0_INR; lia).
  unfold idft2, csumf. cbn [fst].
  change (sumf ph (fun l => sumf pw (fun k => fst (cmul (cmul (dft2 pw ph a k l) (dft2 pw ph b k l)) (cis (phase pw ph k l x y))))))
    with (S2 pw ph (fun k l => fst (cmul (cmul (dft2 pw ph a k l) (dft2 pw ph b k l)) (cis (phase pw ph k l x y))))).
  rewrite (S2_ext pw ph _ (fun k l => S2 pw ph (fun i j => S2 pw ph (fun i' j' =>
     a i j * b i' j' * cos (2 * PI * (INR k * IZR (Z.of_nat x - Z.of_nat i - Z.of_nat i') / INR pw
        + INR l * IZR (Z.of_nat y - Z.of_nat j - Z.of_nat j') / INR ph)))))).
  2:{ intros k l _ _. rewrite !dft2_parts. unfold cmul, cis. cbn [fst snd].
      rewrite !S2_mul. set (t := phase pw ph k l x y).
      match goal with |- (?A - ?B) * _ - (?C + ?D) * _ = _ =>
        replace ((A - B) * cos t - (C + D) * sin t) with (cos t * A + (- cos t) * B + (- sin t) * C + (- sin t) * D) by ring end.
      rewrite <- !S2_scal, <- !S2_plus. apply S2_ext. intros i j _ _. rewrite <- !S2_scal, <- !S2_plus. apply S2_ext. intros i' j' _ _.
      replace (2 * PI * (INR k * IZR (Z.of_nat x - Z.of_nat i - Z.of_nat i') / INR pw + INR l * IZR (Z.of_nat y - Z.of_nat j - Z.of_nat j') / INR ph))
        with (t - phase pw ph k l i j - phase pw ph k l i' j').
      2:{ unfold t, phase. rewrite !minus_IZR, <- !INR_IZR_INZ. field. auto. }
      rewrite !cos_minus, !sin_minus. ring. }
  rewrite S2_swap, Rmult_comm, <- S2_scal. apply S2_ext. intros i j _ _. rewrite S2_swap, <- S2_scal. apply S2_ext. intros i' j' _ _.
  rewrite S2_scal, orthogonality by auto. rewrite mult_INR.
  destruct (divides pw (Z.of_nat x - Z.of_nat i - Z.of_nat i') && divides ph (Z.of_nat y - Z.of_nat j - Z.of_nat j'))%bool; field; auto.
Qed.

(** Packing *)
Section Pack.
Variables (dx dy : nat -> nat) (f : nat -> nat -> R) (W : nat).
Definition hit (i j kx ky : nat) : R := if ((dx kx =? i) && (dy ky =? j))%nat then f kx ky else 0.
Hypothesis injx : forall a b, (a < W)%nat -> (b < W)%nat -> dx a = dx b -> a = b.
Lemma pack_rows H : (forall a b, (a < H)%nat -> (b < H)%nat -> dy a = dy b -> a = b) -> forall i j,
  iter_upto H (fun ky => iter_upto W (fun kx b => store2 b (dx kx) (dy ky) (f kx ky))) (fun _ _ => 0) i j
  = S2 W H (fun kx ky => hit i j kx ky).
Proof.
  induction H as [|n IH]; intros injy i j; [reflexivity|]. cbn [iter_upto].
  set (B := iter_upto n _ (fun _ _ => 0)).
  assert (HB : forall i j, B i j = S2 W n (fun kx ky => hit i j kx ky)) by (intros; apply IH; intros; apply injy; auto; lia).
  assert (R : forall m, (m <= W)%nat -> forall i j, iter_upto m (fun kx b => store2 b (dx kx) (dy n) (f kx n)) B i j = B i j + sumf m (fun kx => hit i j kx n)).
  { induction m as [|m IHm]; intros Hm i' j'; cbn [iter_upto sumf]; [ring|]. unfold store2 at 1, hit at 2.
    destruct (Nat.eqb_spec i' (dx m)) as [->|N]; [destruct (Nat.eqb_spec j' (dy n)) as [->|N]|]; cbn [andb].
    - rewrite !Nat.eqb_refl. cbn [andb]. rewrite HB, (S2_ext W n _ (fun _ _ => 0)).
      2:{ intros kx ky Hx Hy. unfold hit. destruct (Nat.eqb_spec (dy ky) (dy n)) as [E|]; [|rewrite andb_false_r; auto]. apply injy in E; lia. }
      rewrite S2_zero, (sumf_ext m _ (fun _ => 0)).
      2:{ intros kx Hx. unfold hit. destruct (Nat.eqb_spec (dx kx) (dx m)) as [E|]; [|auto]. apply injx in E; lia. }
      rewrite sumf_zero. ring.
    - rewrite IHm by lia. rewrite Nat.eqb_refl. destruct (Nat.eqb_spec (dy n) j'); [congruence|]. cbn [andb]. ring.
    - rewrite IHm by lia. destruct (Nat.eqb_spec (dx m) i'); [congruence|]. cbn [andb]. ring. }
  rewrite R by auto. rewrite HB. unfold S2. cbn [sumf]. reflexivity.
Qed.
End Pack.
Arguments hit _ _ _ _ _ _ _ : simpl never.

Lemma pack_image_ext im i j : pack_image im i j = zero_ext im (Z.of_nat i) (Z.of_nat j).
Proof.
  unfold pack_image. rewrite (pack_rows (fun x => x) (fun y => y) (fp im)) by auto. unfold hit, zero_ext, in_range.
  destruct (lt_dec i (fw im)) as [Hi|Hi]; [destruct (lt_dec j (fh im)) as [Hj|Hj]|].
  - replace (0 <=? Z.of_nat i)%Z with true by lia. replace (Z.of_nat i <? Z.of_nat (fw im))%Z with true by lia.
    replace (0 <=? Z.of_nat j)%Z with true by lia. replace (Z.of_nat j <? Z.of_nat (fh im))%Z with true by lia. cbn [andb].
    rewrite !Nat2Z.id. apply (S2_delta (fw im) (fh im) i j (fp im)); auto.
  - replace (Z.of_nat j <? Z.of_nat (fh im))%Z with false by lia. rewrite !andb_false_r.
    transitivity (S2 (fw im) (fh im) (fun _ _ => 0)); [|apply S2_zero]. apply S2_ext. intros a b Ha Hb. replace (b =? j)%nat with false by lia. rewrite andb_false_r. auto.
  - replace (Z.of_nat i <? Z.of_nat (fw im))%Z with false by lia. rewrite andb_false_r. cbn [andb].
    transitivity (S2 (fw im) (fh im) (fun _ _ => 0)); [|apply S2_zero]. apply S2_ext. intros a b Ha Hb. replace (a =? i)%nat with false by lia. auto.
Qed.

(* destination index of the kernel cell k, and the offset it stands for *)
Definition dst (w kw k : nat) : nat :=
  Z.to_nat ((Z.of_nat k - Z.of_nat (kw / 2) + Z.of_nat (w + kw - 1)) mod Z.of_nat (w + kw - 1)).
Definition off (kw k : nat) : Z := (Z.of_nat k - Z.of_nat (kw / 2))%Z.
Lemma half_lt kw : (0 < kw)%nat -> (kw / 2 < kw)%nat.
Proof. intros. apply Nat.div_lt; lia. Qed.
Lemma dst_lt w kw k : (0 < w)%nat -> (0 < kw)%nat -> (dst w kw k < w + kw - 1)%nat.
Proof. intros. unfold dst. pose proof (Z.mod_pos_bound (Z.of_nat k - Z.of_nat (kw / 2) + Z.of_nat (w + kw - 1)) (Z.of_nat (w + kw - 1)) ltac:(lia)). lia. Qed.
Lemma dst_Z w kw k : (0 < w)%nat -> (0 < kw)%nat -> Z.of_nat (dst w kw k) = ((off kw k) mod Z.of_nat (w + kw - 1))%Z.
Proof.
  intros. unfold dst, off. rewrite Z2Nat.id by (apply Z.mod_pos_bound; lia).
  rewrite <- Z.add_mod_idemp_r, Z.mod_same, Z.add_0_r by lia. reflexivity.
Qed.
Lemma mod_inj a b m : (0 < m -> a mod m = b mod m -> - m < a - b < m -> a = b)%Z.
Proof. intros M E D. assert ((a - b) mod m = 0)%Z by (rewrite Zminus_mod, E, Z.sub_diag; apply Z.mod_0_l; lia).
  apply Z.mod_divide in H; [|lia]. destruct H as (q & Q). assert (q = 0)%Z by nia. nia. Qed.
Lemma dst_inj w kw a b : (0 < w)%nat -> (a < kw)%nat -> (b < kw)%nat -> dst w kw a = dst w kw b -> a = b.
Proof.
  intros W A B E. assert (E' : Z.of_nat (dst w kw a) = Z.of_nat (dst w kw b)) by congruence.
  rewrite !dst_Z in E' by lia. apply mod_inj in E'; unfold off in *; lia.
Qed.
Lemma pack_kernel_hit im k i j : (0 < fw im)%nat -> (0 < fh im)%nat ->
  pack_kernel im k i j = S2 (fw k) (fh k) (fun kx ky => hit (dst (fw im) (fw k)) (dst (fh im) (fh k)) (fp k) i j kx ky).
Proof.
  intros W H. apply (pack_rows (dst (fw im) (fw k)) (dst (fh im) (fh k)) (fp k)).
  - intros a b A B. apply dst_inj; auto.
  - intros a b A B. apply dst_inj; auto.
Qed.
(* in a padded row exactly one image cell meets the kernel cell at output x: the one at x - offset, modulo the row *)
Lemma meets w kw x k i : (0 < w)%nat -> (0 < kw)%nat -> (i < w + kw - 1)%nat ->
  divides (w + kw - 1) (Z.of_nat x - Z.of_nat i - Z.of_nat (dst w kw k)) = (i =? Z.to_nat ((Z.of_nat x - off kw k) mod Z.of_nat (w + kw - 1)))%nat.
Proof.
  intros W K I. unfold divides. rewrite dst_Z by auto. set (M := Z.of_nat (w + kw - 1)). assert (0 < M)%Z by (unfold M; lia).
  rewrite Zminus_mod_idemp_r. pose proof (Z.mod_pos_bound (Z.of_nat x - off kw k) M H).
  replace (Z.of_nat x - Z.of_nat i - off kw k)%Z with ((Z.of_nat x - off kw k) - Z.of_nat i)%Z by ring.
  destruct (Nat.eqb_spec i (Z.to_nat ((Z.of_nat x - off kw k) mod M))) as [E|E].
  - rewrite E, Z2Nat.id by lia. rewrite Zminus_mod, Zmod_mod, Z.sub_diag, Z.mod_0_l by lia. reflexivity.
  - apply Z.eqb_neq. intros Q. apply E. apply Nat2Z.inj. rewrite Z2Nat.id by lia.
    apply Z.mod_divide in Q; [|lia]. destruct Q as (q & Q). replace (Z.of_nat x - off kw k)%Z with (Z.of_nat i + q * M)%Z by lia.
    rewrite Z.mod_add by lia. rewrite Z.mod_small; auto. unfold M. lia.
Qed.
Lemma in_frame w kw x k : (x < w)%nat -> (k < kw)%nat ->
  let z := (Z.of_nat x - off kw k)%Z in let m := (z mod Z.of_nat (w + kw - 1))%Z in
  in_range w m = in_range w z /\ (in_range w z = true -> m = z).
Proof.
  intros X K z m. pose proof (half_lt kw ltac:(lia)). assert (0 < Z.of_nat (w + kw - 1))%Z by lia.
  assert (Hz : (- Z.of_nat (kw - 1) <= z < Z.of_nat (w + kw - 1))%Z) by (unfold z, off; lia).
  assert (Hl : (z < 0 -> - Z.of_nat (kw - 1) + Z.of_nat (kw / 2) <= z)%Z) by (unfold z, off; lia).
  unfold in_range. destruct (Z_lt_ge_dec z 0).
  - assert (m = z + Z.of_nat (w + kw - 1))%Z.
    { unfold m. rewrite <- (Z.mod_add z 1) by lia. rewrite Z.mul_1_l. apply Z.mod_small. lia. }
    split; [|lia]. clearbody m. clear -l H1 Hz Hl X K. lia.
  - assert (m = z) by (unfold m; apply Z.mod_small; lia). rewrite H1. auto.
Qed.
Lemma fft_is_convolution im k x y : (x < fw im)%nat -> (y < fh im)%nat -> (0 < fw k)%nat -> (0 < fh k)%nat ->
  fp (convolve_fft im k) x y = convolution im k x y.
Proof.
  intros X Y KW KH. unfold convolve_fft. cbn [fp]. rewrite conv_theorem by lia.
  set (pw := (fw im + fw k - 1)%nat). set (ph := (fh im + fh k - 1)%nat).
  change (convolution im k x y) with (S2 (fw k) (fh k) (fun kx ky => zero_ext im (Z.of_nat x - off (fw k) kx) (Z.of_nat y - off (fh k) ky) * fp k kx ky)).
  (* the kernel buffer as a sum over kernel cells *)
  rewrite S2_swap.
  rewrite (S2_ext pw ph _ (fun i' j' => S2 (fw k) (fh k) (fun kx ky =>
     if ((i' =? dst (fw im) (fw k) kx) && (j' =? dst (fh im) (fh k) ky))%nat
     then fp k kx ky * S2 pw ph (fun i j => if ((i =? Z.to_nat ((Z.of_nat x - off (fw k) kx) mod Z.of_nat pw)) && (j =? Z.to_nat ((Z.of_nat y - off (fh k) ky) mod Z.of_nat ph)))%nat then pack_image im i j else 0)
     else 0))).
  2:{ intros i' j' Hi Hj.
      transitivity (S2 pw ph (fun i j => pack_image im i j * (if (divides pw (Z.of_nat x - Z.of_nat i - Z.of_nat i') && divides ph (Z.of_nat y - Z.of_nat j - Z.of_nat j'))%bool then 1 else 0)) * pack_kernel im k i' j').
      { rewrite Rmult_comm, <- S2_scal. apply S2_ext. intros. ring. }
      rewrite pack_kernel_hit by lia. rewrite <- S2_scal. apply S2_ext. intros kx ky Hkx Hky. unfold hit.
      rewrite (Nat.eqb_sym (dst _ _ kx)), (Nat.eqb_sym (dst _ _ ky)).
      destruct (Nat.eqb_spec i' (dst (fw im) (fw k) kx)) as [->|]; [destruct (Nat.eqb_spec j' (dst (fh im) (fh k) ky)) as [->|]|]; cbn [andb]; try ring.
      rewrite Rmult_comm. f_equal. apply S2_ext. intros i j Hii Hjj. unfold pw, ph. rewrite !meets by lia.
      destruct ((i =? _) && (j =? _))%nat; ring. }
  rewrite S2_swap. apply S2_ext. intros kx ky Hkx Hky.
  rewrite (S2_delta pw ph (dst (fw im) (fw k) kx) (dst (fh im) (fh k) ky) (fun _ _ => fp k kx ky * S2 pw ph (fun i j => if ((i =? Z.to_nat ((Z.of_nat x - off (fw k) kx) mod Z.of_nat pw)) && (j =? Z.to_nat ((Z.of_nat y - off (fh k) ky) mod Z.of_nat ph)))%nat then pack_image im i j else 0))) by (apply dst_lt; lia).
  pose proof (Z.mod_pos_bound (Z.of_nat x - off (fw k) kx) (Z.of_nat pw) ltac:(unfold pw; lia)).
  pose proof (Z.mod_pos_bound (Z.of_nat y - off (fh k) ky) (Z.of_nat ph) ltac:(unfold ph; lia)).
  rewrite (S2_delta pw ph _ _ (pack_image im)) by lia. rewrite Rmult_comm. f_equal. rewrite pack_image_ext, !Z2Nat.id by lia.
  unfold zero_ext. destruct (in_frame (fw im) (fw k) x kx X Hkx) as (E1 & Q1). destruct (in_frame (fh im) (fh k) y ky Y Hky) as (E2 & Q2).
  cbv zeta in *. fold pw in E1, Q1. fold ph in E2, Q2. rewrite E1, E2.
  destruct (in_range (fw im) (Z.of_nat x - off (fw k) kx)); [|reflexivity]. destruct (in_range (fh im) (Z.of_nat y - off (fh k) ky)); [|reflexivity].
  rewrite Q1, Q2 by auto. reflexivity.
Qed.

Lemma direct_is_correlation im k x y : fp (convolve_direct im k) x y =
  S2 (fw k) (fh k) (fun kx ky => zero_ext im (Z.of_nat x + off (fw k) kx) (Z.of_nat y + off (fh k) ky) * fp k kx ky).
Proof.
  unfold convolve_direct, S2. cbn [fp]. apply sumf_ext. intros ky _. apply sumf_ext. intros kx _. cbv zeta. unfold zero_ext, off.
  rewrite !Z.add_sub_assoc.
  rewrite andb_comm. destruct (in_range (fw im) _ && in_range (fh im) _)%bool; ring.
Qed.
Lemma S2_rev n m f : S2 n m f = S2 n m (fun i j => f (n - 1 - i)%nat (m - 1 - j)%nat).
Proof. unfold S2. rewrite sumf_rev. apply sumf_ext. intros j _. apply sumf_rev. Qed.
Lemma off_rev kw k : Nat.odd kw = true -> (k < kw)%nat -> off kw (kw - 1 - k) = (- off kw k)%Z.
Proof.
  intros O K. unfold off. apply Nat.odd_spec in O. destruct O as (q & Q).
  assert (kw / 2 = q)%nat by (rewrite Q, Nat.add_comm, Nat.mul_comm, Nat.div_add; auto). lia.
Qed.
Lemma direct_is_convolution_of_flipped im k x y : Nat.odd (fw k) = true -> Nat.odd (fh k) = true ->
  fp (convolve_direct im k) x y = convolution im (FI (fw k) (fh k) (fun i j => fp k (fw k - 1 - i) (fh k - 1 - j))) x y.
Proof.
  intros OW OH. rewrite direct_is_correlation, S2_rev. unfold convolution. cbn [fw fh fp].
  unfold S2. apply sumf_ext. intros ky Hy. apply sumf_ext. intros kx Hx. rewrite !off_rev by auto. f_equal.
Qed.
