(* Proofs about the renderer. *)
From Verif Require Import Vec3 RenderModel RenderSpec.

Lemma sum_app : forall a b, sum (a ++ b) = sum a + sum b.
Proof. induction a as [|x a IH]; intros; cbn; [|rewrite IH]; ring. Qed.
Lemma sum_scale : forall {A} (f : A -> R) k l, sum (map (fun x => f x * k) l) = sum (map f l) * k.
Proof. induction l as [|x l IH]; cbn; [|rewrite IH]; ring. Qed.
Lemma sum_nonneg : forall l, (forall x, In x l -> 0 <= x) -> 0 <= sum l.
Proof. induction l as [|x l IH]; intros H; cbn; [lra|]. assert (0 <= x) by (apply H; left; auto). assert (0 <= sum l) by (apply IH; intros; apply H; right; auto). lra. Qed.

(** Trails *)
Lemma increasing_app_end : forall l x, increasing l -> (forall y, In y l -> y < x) -> increasing (l ++ [x]).
Proof.
  intros l x H. induction H; intros Hy; cbn.
  - constructor.
  - constructor; [apply Hy; left; auto | constructor].
  - constructor; auto. apply IHincreasing. intros; apply Hy; right; auto.
Qed.
Lemma increasing_cons_all : forall x l, increasing l -> (forall y, In y l -> x < y) -> increasing (x :: l).
Proof. intros x [|y l] H Hy; [constructor|]. constructor; auto. apply Hy; left; auto. Qed.
Lemma increasing_head : forall x l, increasing (x :: l) -> forall y, In y l -> x < y.
Proof.
  intros x l. revert x. induction l as [|z l IH]; intros x H y Hy; [destruct Hy|].
  inversion H; subst. destruct Hy as [->|Hy]; auto. apply Rlt_trans with z; auto.
Qed.
Lemma increasing_tail : forall x l, increasing (x :: l) -> increasing l.
Proof. intros x l H. inversion H; subst; auto. constructor. Qed.
Lemma increasing_filter : forall p l, increasing l -> increasing (filter p l).
Proof.
  intros p l. induction l as [|x l IH]; intros H; cbn; [constructor|].
  pose proof (increasing_tail _ _ H) as T. destruct (p x); auto.
  apply increasing_cons_all; auto. intros y Hy. apply filter_In in Hy as [Hy _]. eapply increasing_head; eauto.
Qed.
Lemma increasing_params : forall N n s, (s + n <= N)%nat -> increasing (map (sample_param N) (seq s n)).
Proof.
  intros N n. induction n as [|n IH]; intros s H; cbn; [constructor|].
  destruct n as [|n]; [constructor|]. cbn [seq map] in *. constructor.
  - unfold sample_param. destruct (Nat.eqb_spec N 1); [lia|].
    apply Rmult_lt_compat_r. { apply Rinv_0_lt_compat, lt_0_INR. lia. } apply lt_INR. lia.
  - apply (IH (S s)). lia.
Qed.
Lemma last_snoc : forall (l : list R) x d, last (l ++ [x]) d = x.
Proof. intros. apply last_last. Qed.

(* invariant of the subdivision: increasing, from ts to te, at least two parameters *)
Definition trail_inv (ts te : R) (l : list R) : Prop :=
  increasing l /\ (exists r, l = ts :: r /\ r <> [] /\ last l 0 = te).

Lemma init_inv : forall ts te N, ts < te -> trail_inv ts te (init_params ts te N).
Proof.
  intros ts te N H. unfold init_params, trail_inv. split.
  - apply increasing_cons_all.
    + apply increasing_app_end.
      * apply increasing_filter, increasing_params. lia.
      * intros y Hy. apply filter_In in Hy as [_ Hy]. apply andb_true_iff in Hy as [A B]. rb. auto.
    + intros y Hy. apply in_app_or in Hy as [Hy|[<-|[]]]; auto.
      apply filter_In in Hy as [_ Hy]. apply andb_true_iff in Hy as [A B]. rb. auto.
  - eexists. split; [reflexivity|]. split.
    + intros E. apply app_eq_nil in E as [_ E]. discriminate.
    + rewrite app_comm_cons. apply last_snoc.
Qed.

Lemma pass_head : forall pix l, hd_error (pass pix l) = hd_error l.
Proof. intros pix [|a [|b l]]; auto. cbn [pass]. destruct (Rltb _ _); auto. Qed.
Lemma pass_cons : forall pix a b l, pass pix (a :: b :: l) =
  if Rltb max_pixel_step (pdist pix a b) then a :: (a + b) / 2 :: pass pix (b :: l) else a :: pass pix (b :: l).
Proof. reflexivity. Qed.
Lemma last_cons_ne : forall (a : R) q d, q <> [] -> last (a :: q) d = last q d.
Proof. intros a [|] d; tauto. Qed.
Lemma pass_last : forall pix l d, last (pass pix l) d = last l d.
Proof.
  intros pix l d. induction l as [|a l IH]; auto. destruct l as [|b l]; auto.
  rewrite pass_cons.
  assert (Ne : pass pix (b :: l) <> []). { pose proof (pass_head pix (b :: l)) as Hh. destruct (pass pix (b :: l)); discriminate. }
  destruct (Rltb max_pixel_step (pdist pix a b)).
  - rewrite last_cons_ne by discriminate. rewrite last_cons_ne by auto. rewrite IH. reflexivity.
  - rewrite last_cons_ne by auto. rewrite IH. reflexivity.
Qed.
Lemma pass_increasing : forall pix l, increasing l -> increasing (pass pix l).
Proof.
  intros pix l H. induction H; [constructor|constructor|].
  change (pass pix (x :: y :: l)) with
    (if Rltb max_pixel_step (pdist pix x y) then x :: (x + y) / 2 :: pass pix (y :: l) else x :: pass pix (y :: l)).
  pose proof (pass_head pix (y :: l)) as Hh. destruct (pass pix (y :: l)) as [|z q]; [discriminate|]. cbn in Hh. injection Hh as ->.
  destruct (Rltb max_pixel_step (pdist pix x y)).
  - constructor; [lra|]. constructor; [lra|auto].
  - constructor; auto.
Qed.
Lemma pass_inv : forall pix ts te l, trail_inv ts te l -> trail_inv ts te (pass pix l).
Proof.
  intros pix ts te l (A & r & E & Ne & La). subst l. destruct r as [|b r]; [tauto|].
  split; [apply pass_increasing; auto|].
  pose proof (pass_head pix (ts :: b :: r)) as Hh. pose proof (pass_last pix (ts :: b :: r) 0) as Hl.
  destruct (pass pix (ts :: b :: r)) as [|z q] eqn:Ep; [discriminate|]. cbn in Hh. injection Hh as ->.
  exists q. split; auto. split.
  - intros ->. rewrite pass_cons in Ep. pose proof (pass_head pix (b :: r)) as Hb.
    destruct (Rltb max_pixel_step (pdist pix ts b)); [discriminate|].
    destruct (pass pix (b :: r)); discriminate.
  - rewrite Hl. auto.
Qed.
Lemma subdivide_inv : forall pix ts te fuel l, trail_inv ts te l -> trail_inv ts te (subdivide pix fuel l).
Proof.
  induction fuel as [|f IH]; intros l H; cbn; auto. destruct (any_far pix l); auto. apply IH, pass_inv, H.
Qed.
Lemma not_far_steps : forall pix l, any_far pix l = false -> steps_within pix max_pixel_step l.
Proof.
  intros pix. induction l as [|a l IH]; [cbn; auto|]. destruct l as [|b l]; [cbn; auto|].
  intros H. change (any_far pix (a :: b :: l)) with (Rltb max_pixel_step (pdist pix a b) || any_far pix (b :: l))%bool in H.
  apply orb_false_iff in H as [A B]. rb. split; [exact A | apply IH; exact B].
Qed.

(* the weights telescope *)
Definition next_prev (l : list R) (k : nat) : R :=
  (nth (Nat.min (k + 1) (List.length l - 1)) l 0 - nth (k - 1) l 0) / 2.
Lemma dt_np : forall ts te l k, (2 <= List.length l)%nat -> (k < List.length l)%nat -> dt ts te l k = next_prev l k.
Proof.
  intros ts te l k Hn Hk. unfold dt, next_prev.
  destruct (Nat.eqb_spec (List.length l) 1); [lia|].
  destruct (Nat.eqb_spec k 0) as [->|].
  { rewrite Nat.min_l by lia. reflexivity. }
  destruct (Nat.eqb_spec k (List.length l - 1)) as [E|].
  - rewrite Nat.min_r by lia. rewrite <- E. reflexivity.
  - rewrite Nat.min_l by lia. reflexivity.
Qed.
Lemma sum_seq_tel : forall (f : nat -> R) m, 
  sum (map (fun k => (f (Nat.min (k + 1) m) - f (k - 1)%nat) / 2) (seq 0 m)) + (f m - f (m - 1)%nat) / 2 = f m - f 0%nat.
Proof.
  intros f m.
  assert (G : forall j, (j <= m)%nat -> sum (map (fun k => (f (Nat.min (k + 1) m) - f (k - 1)%nat) / 2) (seq 0 j)) =
     (f j + f (j - 1)%nat) / 2 - f 0%nat).
  { induction j as [|j IH]; intros Hj; [cbn; field|].
    rewrite seq_S, map_app, sum_app, IH by lia. cbn [map sum]. cbn [plus].
    rewrite Nat.min_l by lia. replace (j + 1)%nat with (S j) by lia. replace (S j - 1)%nat with j by lia. field. }
  rewrite G by lia. field.
Qed.
Lemma dt_sum : forall ts te l, trail_inv ts te l ->
  sum (map (dt ts te l) (seq 0 (List.length l))) = te - ts.
Proof.
  intros ts te l (_ & r & E & Ne & La).
  assert (Hn : (2 <= List.length l)%nat) by (subst l; destruct r; [tauto|cbn; lia]).
  rewrite (map_ext_in _ (next_prev l)). 2:{ intros k Hk. apply in_seq in Hk. apply dt_np; lia. }
  destruct (List.length l) as [|m] eqn:Em; [lia|].
  rewrite seq_S, map_app, sum_app. cbn [map sum plus].
  unfold next_prev. rewrite Em. replace (S m - 1)%nat with m by lia.
  pose proof (sum_seq_tel (fun k => nth k l 0) m) as T. cbn beta in T.
  rewrite Nat.min_r with (n := (m + 1)%nat) by lia. rewrite Rplus_0_r. rewrite T.
  assert (L : nth m l 0 = te).
  { rewrite <- La. clear - Em. revert m Em. induction l as [|x l IH]; intros m Em; [discriminate|]. cbn in Em. injection Em as Em.
    destruct l as [|y l]; [cbn in Em; subst; reflexivity|]. destruct m as [|m]; [discriminate|]. change (nth (S m) (x :: y :: l) 0) with (nth m (y :: l) 0).
    change (nth m (y :: l) 0 = last (y :: l) 0). apply IH; auto. }
  rewrite L. subst l. reflexivity.
Qed.
Lemma increasing_nth : forall l i j, increasing l -> (i <= j)%nat -> (j < List.length l)%nat -> nth i l 0 <= nth j l 0.
Proof.
  induction l as [|x l IH]; intros i j H Hij Hj; [cbn in Hj; lia|].
  destruct i as [|i], j as [|j]; cbn [nth]; try lra; try lia.
  - apply Rlt_le. eapply increasing_head; eauto. apply nth_In. cbn in Hj. lia.
  - apply IH; try lia. eapply increasing_tail; eauto. cbn in Hj. lia.
Qed.
Lemma dt_nonneg : forall ts te l k, trail_inv ts te l -> (k < List.length l)%nat -> 0 <= dt ts te l k.
Proof.
  intros ts te l k (I & r & E & Ne & La) Hk.
  assert (Hn : (2 <= List.length l)%nat) by (subst l; destruct r; [tauto|cbn; lia]).
  rewrite dt_np by auto. unfold next_prev.
  assert (nth (k - 1) l 0 <= nth (Nat.min (k + 1) (List.length l - 1)) l 0) by (apply increasing_nth; auto; lia). lra.
Qed.

Lemma interval_weights_ok : forall pix N i, fst i < snd i ->
  sum (interval_weights pix N i) = 1 /\ (forall x, In x (interval_weights pix N i) -> 0 <= x).
Proof.
  intros pix N [ts te] H. cbn in H.
  pose proof (subdivide_inv pix ts te 12 _ (init_inv ts te N H)) as I.
  unfold interval_weights, trail_params. cbn [fst snd].
  set (l := subdivide pix 12 (init_params ts te N)) in *. split.
  - unfold Rdiv. rewrite (sum_scale (dt ts te l)), dt_sum by auto. field. lra.
  - intros x Hx. apply in_map_iff in Hx as (k & <- & Hk). apply in_seq in Hk.
    apply Rmult_le_pos; [apply dt_nonneg; auto; lia|]. apply Rlt_le, Rinv_0_lt_compat. lra.
Qed.

(** Interpolation *)
Lemma lerp_index_spec : forall n t, (2 <= n)%nat -> 0 <= t <= 1 ->
  (lerp_index n t + 1 < n)%nat /\ INR (lerp_index n t) <= t * INR (n - 1) <= INR (lerp_index n t) + 1.
Proof.
  intros n t Hn Ht. unfold lerp_index, floorN.
  set (s := t * INR (n - 1)).
  assert (Hs : 0 <= s <= INR (n - 1)).
  { pose proof (pos_INR (n - 1)). unfold s. split; [apply Rmult_le_pos; lra|]. rewrite <- (Rmult_1_l (INR (n - 1))) at 2.
    apply Rmult_le_compat_r; lra. }
  destruct (base_Int_part s) as [A B].
  assert (0 <= Int_part s)%Z.
  { assert (-1 < Int_part s)%Z by (apply lt_IZR; lra). lia. }
  assert (E : INR (Z.to_nat (Int_part s)) = IZR (Int_part s)) by (rewrite INR_IZR_INZ, Z2Nat.id; auto).
  split; [lia|].
  destruct (Nat.le_gt_cases (Z.to_nat (Int_part s)) (n - 2)).
  - rewrite Nat.min_l by auto. rewrite E. lra.
  - rewrite Nat.min_r by lia. replace (INR (n - 1)) with (INR (n - 2) + 1) in Hs.
    2:{ rewrite <- S_INR. f_equal. lia. }
    assert (INR (n - 2) < INR (Z.to_nat (Int_part s))) by (apply lt_INR; lia). lra.
Qed.

Lemma interp_ok : forall irr t, irr <> [] -> 0 <= t <= 1 ->
  exists v, interpolate_irradiances irr t = Some v /\
    exists a b, In a irr /\ In b irr /\ Rmin a b <= v <= Rmax a b.
Proof.
  intros irr t Hne Ht. unfold interpolate_irradiances.
  destruct (Nat.eqb_spec (List.length irr) 1) as [E|E].
  - destruct irr as [|a [|b l]]; try (cbn in E; discriminate). exists a. split; auto. exists a, a. repeat split; try (left; auto; fail).
    + rewrite Rmin_left; lra.
    + rewrite Rmax_left; lra.
  - assert (Hn : (2 <= List.length irr)%nat) by (destruct irr; [tauto|cbn in *; lia]).
    destruct (lerp_index_spec (List.length irr) t Hn Ht) as [A B].
    destruct (nth_error irr (lerp_index (List.length irr) t)) as [a|] eqn:Ea.
    2:{ apply nth_error_None in Ea. lia. }
    destruct (nth_error irr (lerp_index (List.length irr) t + 1)) as [b|] eqn:Eb.
    2:{ apply nth_error_None in Eb. lia. }
    eexists. split; [reflexivity|]. exists a, b. apply nth_error_In in Ea, Eb. repeat split; auto.
    + set (f := t * INR (List.length irr - 1) - INR (lerp_index (List.length irr) t)) in *. assert (0 <= f <= 1) by (unfold f; lra). clearbody f.
      unfold Rmin. destruct (Rle_dec a b); nra.
    + set (f := t * INR (List.length irr - 1) - INR (lerp_index (List.length irr) t)) in *. assert (0 <= f <= 1) by (unfold f; lra). clearbody f.
      unfold Rmax. destruct (Rle_dec a b); nra.
Qed.
Lemma interp_at_sample : forall irr k v, (2 <= List.length irr)%nat -> nth_error irr k = Some v ->
  interpolate_irradiances irr (INR k / INR (List.length irr - 1)) = Some v.
Proof.
  intros irr k v Hn Hk. assert (Hl : (k < List.length irr)%nat) by (apply nth_error_Some; congruence).
  set (n := List.length irr) in *. assert (Hp : 0 < INR (n - 1)) by (apply lt_0_INR; lia).
  assert (Hs : INR k / INR (n - 1) * INR (n - 1) = INR k) by (field; lra).
  assert (Ht : 0 <= INR k / INR (n - 1) <= 1).
  { split; [apply Rmult_le_pos; [apply pos_INR | apply Rlt_le, Rinv_0_lt_compat; auto]|].
    apply Rmult_le_reg_r with (INR (n - 1)); auto. rewrite Hs, Rmult_1_l. apply le_INR. lia. }
  destruct (lerp_index_spec n (INR k / INR (n - 1)) Hn Ht) as [A B]. rewrite Hs in B.
  unfold interpolate_irradiances. fold n. destruct (Nat.eqb_spec n 1); [lia|]. rewrite Hs.
  set (lo := lerp_index n (INR k / INR (n - 1))) in *. clearbody lo.
  assert (K : k = lo \/ k = (lo + 1)%nat).
  { destruct B as [B1 B2]. apply INR_le in B1. rewrite <- S_INR in B2. apply INR_le in B2. lia. }
  destruct (nth_error irr lo) as [a|] eqn:Ea. 2:{ apply nth_error_None in Ea. fold n in Ea. lia. }
  destruct (nth_error irr (lo + 1)) as [b|] eqn:Eb. 2:{ apply nth_error_None in Eb. fold n in Eb. lia. }
  destruct K as [K|K]; rewrite K in Hk; rewrite K at 1.
  - rewrite Ea in Hk. injection Hk as ->. f_equal. ring.
  - rewrite Eb in Hk. injection Hk as ->. f_equal. rewrite plus_INR. cbn. ring.
Qed.

(** Welford *)
Definition welford_inv (l : list R) (a : acc) : Prop :=
  taken a = List.length l /\ total a = sum l /\ INR (List.length l) * mean a = sum l /\
  M2 a = sum (map (fun x => x * x) l) - INR (List.length l) * (mean a * mean a).
Lemma welford_step : forall l a x, welford_inv l a -> welford_inv (l ++ [x]) (acc_add a x).
Proof.
  intros l a x (A & B & C & D). unfold welford_inv, acc_add. cbn [taken total mean M2].
  rewrite app_length, map_app, !sum_app. cbn [List.length map sum]. rewrite Nat.add_1_r, A.
  assert (Hp : INR (S (List.length l)) = INR (List.length l) + 1) by apply S_INR.
  pose proof (pos_INR (List.length l)) as H0. set (n := INR (List.length l)) in *. rewrite Hp.
  assert (Hn : n + 1 <> 0) by lra. clearbody n.
  repeat split.
  - rewrite B. ring.
  - rewrite <- C. field. lra.
  - rewrite D. field. lra.
Qed.
Lemma sq_dev_eq : forall l m, INR (List.length l) * m = sum l ->
  sum (map (fun x => (x - m) * (x - m)) l) = sum (map (fun x => x * x) l) - INR (List.length l) * (m * m).
Proof.
  intros l m H.
  assert (G : sum (map (fun x => (x - m) * (x - m)) l) = sum (map (fun x => x * x) l) - 2 * m * sum l + INR (List.length l) * (m * m)).
  { clear H. induction l as [|x l IH]; cbn [map sum]; [cbn; ring|]. rewrite IH. cbn [List.length]. rewrite S_INR. ring. }
  rewrite G, <- H. ring.
Qed.
Lemma welford_final : forall l a, l <> [] -> welford_inv l a ->
  mean a = average l /\ M2 a = sq_dev l /\ averaged a = Some (average l).
Proof.
  intros l a Hl (A & B & C & D).
  assert (Hn : 0 < INR (List.length l)) by (apply lt_0_INR; destruct l; [tauto|cbn; lia]).
  assert (E : mean a = average l). { unfold average. rewrite <- C. field. lra. }
  split; auto. split.
  - rewrite D. unfold sq_dev. rewrite <- E. symmetry. apply sq_dev_eq. auto.
  - unfold averaged. rewrite A. destruct (Nat.eqb_spec (List.length l) 0); [destruct l; [tauto|cbn in *; lia]|].
    rewrite B. unfold average. f_equal. field. lra.
Qed.
Lemma accepted_app_prefix : forall xs ys, accepted (xs ++ ys) = accepted xs ++ accepted ys.
Proof. induction xs as [|[x|] xs IH]; intros; cbn; rewrite ?IH; auto. Qed.

(* the loop stops after a prefix of the samples, and its statistics are those of that prefix *)
Lemma loop_prefix : forall dyn ms stop xs s l a, welford_inv l a ->
  exists pre post, xs = pre ++ post /\
   welford_inv (l ++ accepted pre) (sample_loop dyn ms stop s xs a) /\
   (post <> [] -> dyn = true /\ (ms <= s + List.length pre)%nat /\ stop (sample_loop dyn ms stop s xs a) = true).
Proof.
  intros dyn ms stop. induction xs as [|x xs IH]; intros s l a H.
  - exists [], []. cbn. rewrite app_nil_r. repeat split; auto; try apply H; try congruence.
  - destruct x as [x|]; cbn [sample_loop].
    + pose proof (welford_step l a x H) as H'.
      destruct (dyn && Nat.leb (ms - 1) s && stop (acc_add a x))%bool eqn:E.
      * exists [Some x], xs. cbn [accepted app List.length]. repeat split; auto; try apply H';
        rewrite !andb_true_iff in E; destruct E as [[E1 E2] E3]; auto. apply Nat.leb_le in E2. lia.
      * destruct (IH (S s) (l ++ [x]) _ H') as (pre & post & E1 & E2 & E3).
        exists (Some x :: pre), post. cbn [accepted app List.length]. rewrite <- app_assoc in E2. split; [congruence|]. split; auto.
        intros P. destruct (E3 P) as (Q1 & Q2 & Q3). repeat split; auto. lia.
    + destruct (IH (S s) l a H) as (pre & post & E1 & E2 & E3).
      exists (None :: pre), post. cbn [accepted app List.length]. split; [congruence|]. split; auto.
      intros P. destruct (E3 P) as (Q1 & Q2 & Q3). repeat split; auto. lia.
Qed.

(** Veiling glare *)
Lemma lsum_sum : forall l, lsum l = sum l.
Proof.
  intros l. unfold lsum. assert (G : forall a, fold_left Rplus l a = a + sum l).
  { induction l as [|x l IH]; intros a; cbn; [|rewrite IH]; ring. }
  rewrite G. ring.
Qed.
Lemma veil_sum : forall alpha img, img <> [] -> sum (veil alpha img) = sum img.
Proof.
  intros alpha img Hne. unfold veil. rewrite lsum_sum.
  assert (Hn : 0 < INR (List.length img)) by (apply lt_0_INR; destruct img; [tauto|cbn; lia]).
  assert (G : forall c l, sum (map (fun p => p * (1 - alpha) + c) l) = (1 - alpha) * sum l + INR (List.length l) * c).
  { intros c. induction l as [|x l IH]; cbn [map sum]; [cbn; ring|]. rewrite IH. cbn [List.length]. rewrite S_INR. ring. }
  rewrite G. field. lra.
Qed.

(** Threads *)
Lemma run_local : forall sched s ts, (forall t, In t ts -> local_only (todo t)) ->
  let '(s', ts') := run sched s ts in
  s' = s /\ Forall2 (fun t t' => exists k, todo t = repeat Trace k ++ todo t' /\ seen t' = seen t ++ repeat (OTime (stime s)) k) ts ts'.
Proof.
  induction sched as [|i sched IH]; intros s ts H; cbn [run].
  - split; auto. clear H. induction ts; constructor; auto. exists 0%nat. cbn. rewrite app_nil_r. auto.
  - unfold tile_step. destruct (nth_error ts i) as [[td sn]|] eqn:Ei; [|apply IH; auto].
    destruct td as [|a r]; [apply IH; auto|].
    assert (Ha : a = Trace). { apply (H _ (nth_error_In _ _ Ei)). left; auto. }
    subst a. cbn [act].
    assert (H' : forall t, In t (upd ts i {| todo := r; seen := sn ++ [OTime (stime s)] |}) -> local_only (todo t)).
    { intros t Ht. apply In_nth_error in Ht as (j & Hj). destruct (Nat.eq_dec i j) as [->|Ne].
      - rewrite nth_error_upd_eq in Hj by (apply nth_error_Some; congruence). injection Hj as <-. cbn.
        intros a Ha. apply (H _ (nth_error_In _ _ Ei)). right; auto.
      - rewrite nth_error_upd_neq in Hj by auto. apply H. eapply nth_error_In; eauto. }
    specialize (IH s _ H'). destruct (run sched s (upd ts i {| todo := r; seen := sn ++ [OTime (stime s)] |})) as [s' ts'].
    destruct IH as [-> IH]. split; auto. clear H H'. revert i ts' Ei IH.
    induction ts as [|t ts IHt]; intros i ts' Ei IH; [destruct i; discriminate|].
    destruct i as [|i]; cbn [upd nth_error] in *.
    + injection Ei as ->. inversion IH as [|? t' ? ts2 (k & A & B) F]; subst. constructor; auto.
      exists (S k). cbn [todo seen repeat app] in *. rewrite A. split; auto. rewrite B, <- app_assoc. reflexivity.
    + inversion IH as [|? t' ? ts2 P F]; subst. constructor; auto. eapply IHt; eauto.
Qed.
