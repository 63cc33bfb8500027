(* Lemmas on bin layouts, band integrals, the physics helpers and aberration. *)
From Coq Require Import Reals List Lra Lia Psatz.
From Verif Require Import Common Vec3 SpectralModel SpectralSpec SpectralProofs.
From Coquelicot Require Import Coquelicot.
Import ListNotations.
Open Scope R_scope.

Lemma nano_pos : 0 < nano.
Proof. unfold nano. apply Rinv_0_lt_compat. lra. Qed.

Lemma sum_shift l a : fold_left Rplus l a = a + rsum l.
Proof. revert a; induction l as [|x t IH]; intros a; cbn; [lra|]. rewrite IH. lra. Qed.
Lemma sum_rsum l : sum l = rsum l.
Proof. unfold sum. rewrite sum_shift. lra. Qed.
Lemma rsum_scale c l : rsum (map (Rmult c) l) = c * rsum l.
Proof. induction l as [|x t IH]; cbn; [lra|]. rewrite IH. lra. Qed.
Lemma rsum_pos l : l <> [] -> (forall x, In x l -> 0 < x) -> 0 < rsum l.
Proof.
  induction l as [|x t IH]; intros Hn H; [congruence|]. cbn. assert (0 < x) by (apply H; left; auto).
  destruct t as [|y t]; [cbn; lra|]. assert (0 < rsum (y :: t)) by (apply IH; [congruence|intros; apply H; right; auto]). lra.
Qed.

Lemma nth_map_seq {A} (f : nat -> A) d n i : (i < n)%nat -> nth i (map f (seq 0 n)) d = f i.
Proof. intros H. rewrite nth_indep with (d' := f 0%nat) by (rewrite map_length, seq_length; lia). rewrite map_nth, seq_nth by lia. reflexivity. Qed.
Lemma nth_map_any {A B} (f : A -> B) d d' l i : (i < List.length l)%nat -> nth i (map f l) d = f (nth i l d').
Proof. intros H. rewrite nth_indep with (d' := f d') by (rewrite map_length; lia). apply map_nth. Qed.
(** layouts *)
Definition positive_widths (l : list bin) : Prop := forall b, In b l -> b_min b < b_max b.
Definition disjoint_bins (l : list bin) : Prop := forall i j x, (i < List.length l)%nat -> (j < List.length l)%nat -> i <> j ->
  inside (nth i l (Bin 0 0)) x -> ~ inside (nth j l (Bin 0 0)) x.

Lemma overlap_iff a b : b_min a < b_max a -> b_min b < b_max b -> (overlap a b = true <-> exists x, inside a x /\ inside b x).
Proof.
  intros Ha Hb. unfold overlap, inside. rewrite Bool.andb_true_iff, !Rltb_true. split.
  - intros [H1 H2]. exists ((Rmax (b_min a) (b_min b) + Rmin (b_max a) (b_max b)) / 2).
    unfold Rmax, Rmin; destruct (Rle_dec _ _), (Rle_dec _ _); lra.
  - intros (x & H1 & H2). lra.
Qed.
Lemma any_overlap_false l : any_overlap l = false <-> forall i j, (i < j)%nat -> (j < List.length l)%nat -> overlap (nth i l (Bin 0 0)) (nth j l (Bin 0 0)) = false.
Proof.
  induction l as [|b t IH]; cbn; [split; auto; intros; lia|]. rewrite Bool.orb_false_iff, IH. split.
  - intros [H1 H2] [|i] [|j] Hij Hj; try lia.
    + destruct (overlap b (nth j t (Bin 0 0))) eqn:E; auto. rewrite <- H1. symmetry. apply existsb_exists. exists (nth j t (Bin 0 0)). split; auto. apply nth_In. lia.
    + apply H2; lia.
  - intros H. split.
    + destruct (existsb (overlap b) t) eqn:E; auto. apply existsb_exists in E as (c & Hc & Ho).
      destruct (In_nth _ _ (Bin 0 0) Hc) as (j & Hj & <-). rewrite <- Ho. apply (H 0%nat (S j)); lia.
    + intros i j Hij Hj. apply (H (S i) (S j)); lia.
Qed.
Lemma check_bins_ok l : check_bins l = Ok l <-> positive_widths l /\ disjoint_bins l.
Proof.
  unfold check_bins. destruct (existsb inverted l) eqn:E1; cbn.
  - split; [discriminate|]. intros [H _]. apply existsb_exists in E1 as (b & Hb & Hi). unfold inverted in Hi. rb. specialize (H b Hb). lra.
  - assert (HP: positive_widths l).
    { intros b Hb. destruct (Rlt_dec (b_min b) (b_max b)) as [|Hn]; auto. exfalso.
      assert (existsb inverted l = true) by (apply existsb_exists; exists b; split; auto; unfold inverted; apply Rleb_true; lra). congruence. }
    assert (HW: forall i, (i < List.length l)%nat -> b_min (nth i l (Bin 0 0)) < b_max (nth i l (Bin 0 0))) by (intros i Hi; apply HP, nth_In; auto).
    destruct (any_overlap l) eqn:E2; cbn.
    + split; [discriminate|]. intros [_ HD]. exfalso.
      assert (any_overlap l = false); [|congruence]. apply any_overlap_false. intros i j Hij Hj.
      destruct (overlap _ _) eqn:E; auto. apply overlap_iff in E as (x & Hx1 & Hx2); try (apply HW; lia). exfalso. eapply (HD i j x); eauto; lia.
    + split; auto. intros _. split; auto. rewrite any_overlap_false in E2.
      intros i j x Hi Hj Hne Hx1 Hx2. destruct (Nat.lt_total i j) as [H|[H|H]]; try lia.
      * specialize (E2 i j H Hj). assert (overlap (nth i l (Bin 0 0)) (nth j l (Bin 0 0)) = true) by (apply overlap_iff; eauto). congruence.
      * specialize (E2 j i H Hi). assert (overlap (nth j l (Bin 0 0)) (nth i l (Bin 0 0)) = true) by (apply overlap_iff; eauto). congruence.
Qed.
Lemma check_bins_throws l : check_bins l = Throws <-> ~ (positive_widths l /\ disjoint_bins l).
Proof.
  rewrite <- check_bins_ok. unfold check_bins. destruct (_ || _); split; congruence.
Qed.
Lemma init_bins_ok n args l : init_bins n args = Ok l -> List.length l = n /\ positive_widths l /\ disjoint_bins l.
Proof.
  unfold init_bins. intros H.
  assert (HC: forall k, check_bins k = Ok l -> k = l /\ positive_widths l /\ disjoint_bins l).
  { intros k Hk. assert (k = l) as -> by (revert Hk; unfold check_bins; destruct (_ || _); congruence). split; auto. apply check_bins_ok; auto. }
  destruct (Nat.eqb _ 2); [destruct (Nat.eqb n 0); [discriminate|]|destruct (Nat.eqb _ (2 * n)); [|destruct (Nat.eqb _ (n + 1)); [|discriminate]]];
    apply HC in H as [<- H]; (split; [|exact H]);
    [unfold init_uniform|unfold init_pairs|unfold init_edges]; rewrite map_length, seq_length; reflexivity.
Qed.

(* layouts built from a non-decreasing chain of edges *)
Lemma chain_disjoint n (e : nat -> R) : (forall i, (i < n)%nat -> e i < e (i + 1)%nat) ->
  let l := map (fun i => Bin (e i) (e (i + 1)%nat)) (seq 0 n) in positive_widths l /\ disjoint_bins l.
Proof.
  intros H l.
  assert (HL: List.length l = n) by (unfold l; rewrite map_length, seq_length; auto).
  assert (HN: forall i, (i < n)%nat -> nth i l (Bin 0 0) = Bin (e i) (e (i + 1)%nat)).
  { intros i Hi. unfold l. rewrite nth_map_seq by lia. reflexivity. }
  assert (HM: forall i j, (i <= j)%nat -> (j <= n)%nat -> e i <= e j).
  { intros i j Hij. induction Hij as [|j Hij IH]; intros Hj; [lra|]. specialize (H j ltac:(lia)). replace (j + 1)%nat with (S j) in H by lia. specialize (IH ltac:(lia)). lra. }
  split.
  - intros b Hb. unfold l in Hb. apply in_map_iff in Hb as (i & <- & Hi). apply in_seq in Hi. cbn. apply H. lia.
  - intros i j x Hi Hj Hne. rewrite HL in Hi, Hj. rewrite !HN by auto. unfold inside; cbn. intros Hx1 Hx2.
    destruct (Nat.lt_total i j) as [Hl|[Hl|Hl]]; try lia.
    + assert (e (i + 1)%nat <= e j) by (apply HM; lia). lra.
    + assert (e (j + 1)%nat <= e i) by (apply HM; lia). lra.
Qed.
Lemma uniform_nth n lo hi i : (i < n)%nat -> nth i (init_uniform n lo hi) (Bin 0 0) =
  Bin (lo * nano + INR i * ((hi * nano - lo * nano) / INR n)) (lo * nano + INR (i + 1) * ((hi * nano - lo * nano) / INR n)).
Proof.
  intros Hi. unfold init_uniform. cbv zeta. rewrite nth_map_seq by lia. reflexivity.
Qed.
Lemma uniform_ok n lo hi : (0 < n)%nat -> (check_bins (init_uniform n lo hi) = Ok (init_uniform n lo hi) <-> lo < hi).
Proof.
  intros Hn. pose proof nano_pos as HN. assert (0 < INR n) by (apply lt_0_INR; lia). rewrite check_bins_ok. split.
  - intros [HP _]. assert (HI: In (nth 0 (init_uniform n lo hi) (Bin 0 0)) (init_uniform n lo hi)) by (apply nth_In; unfold init_uniform; rewrite map_length, seq_length; lia).
    specialize (HP _ HI).
    rewrite uniform_nth in HP by lia. cbn [b_min b_max] in HP. rewrite plus_INR in HP. cbn [INR] in HP.
    assert (0 < (hi * nano - lo * nano) / INR n) by lra. assert (0 < (hi - lo) * nano).
    { replace ((hi - lo) * nano) with ((hi * nano - lo * nano) / INR n * INR n) by (field; lra). apply Rmult_lt_0_compat; auto. }
    destruct (Rlt_dec lo hi); auto. nra.
  - intros H1. assert (0 < (hi * nano - lo * nano) / INR n) by (apply Rdiv_lt_0_compat; nra).
    apply (chain_disjoint n (fun i => lo * nano + INR i * ((hi * nano - lo * nano) / INR n))).
    intros i Hi. rewrite plus_INR. cbn [INR]. lra.
Qed.
Lemma edges_nth n args i : (i < n)%nat -> nth i (init_edges n args) (Bin 0 0) = Bin (nth i args 0 * nano) (nth (i + 1) args 0 * nano).
Proof.
  intros Hi. unfold init_edges. rewrite nth_map_seq by lia. reflexivity.
Qed.
Lemma edges_ok n args : check_bins (init_edges n args) = Ok (init_edges n args) <-> (forall i, (i < n)%nat -> nth i args 0 < nth (i + 1) args 0).
Proof.
  pose proof nano_pos as HN. rewrite check_bins_ok. split.
  - intros [HP _] i Hi. assert (HI: In (nth i (init_edges n args) (Bin 0 0)) (init_edges n args)) by (apply nth_In; unfold init_edges; rewrite map_length, seq_length; lia).
    specialize (HP _ HI).
    rewrite edges_nth in HP by auto. cbn in HP. nra.
  - intros H. apply (chain_disjoint n (fun i => nth i args 0 * nano)). intros i Hi. specialize (H i Hi). nra.
Qed.

(** from_total *)
Lemma from_total_sum l t : l <> [] -> positive_widths l -> rsum (from_total l t) = t.
Proof.
  intros Hn HP. unfold from_total. rewrite sum_rsum.
  assert (HS: 0 < rsum (map b_width l)).
  { apply rsum_pos; [destruct l; cbn; congruence|]. intros x Hx. apply in_map_iff in Hx as (b & <- & Hb). specialize (HP b Hb). unfold b_width. lra. }
  set (s := rsum (map b_width l)) in *.
  replace (map (fun b => t * (b_width b / s)) l) with (map (Rmult (t / s)) (map b_width l)).
  - rewrite rsum_scale. fold s. field. lra.
  - rewrite map_map. apply map_ext. intros b. field. lra.
Qed.
Lemma from_total_share l t b : positive_widths l -> In b l -> exists s, s = rsum (map b_width l) /\ 0 < s /\ In (t * (b_width b / s)) (from_total l t).
Proof.
  intros HP Hb. exists (rsum (map b_width l)). split; auto. split.
  - apply rsum_pos; [destruct l; cbn; [destruct Hb|congruence]|]. intros x Hx. apply in_map_iff in Hx as (c & <- & Hc). specialize (HP c Hc). unfold b_width. lra.
  - unfold from_total. rewrite sum_rsum. apply in_map_iff. exists b. auto.
Qed.
Lemma from_total_nonneg l t x : positive_widths l -> 0 <= t -> In x (from_total l t) -> 0 <= x.
Proof.
  intros HP Ht Hx. unfold from_total in Hx. rewrite sum_rsum in Hx. apply in_map_iff in Hx as (b & <- & Hb).
  destruct (from_total_share l t b HP Hb) as (s & -> & Hs & _). specialize (HP b Hb).
  apply Rmult_le_pos; auto. apply Rlt_le, Rdiv_lt_0_compat; auto. unfold b_width. lra.
Qed.
Lemma from_total_nth l t i : (i < List.length l)%nat -> nth i (from_total l t) 0 * rsum (map b_width l) = t * b_width (nth i l (Bin 0 0)) \/ rsum (map b_width l) = 0.
Proof.
  intros Hi. destruct (Req_dec (rsum (map b_width l)) 0) as [|Hs]; auto. left. unfold from_total. rewrite sum_rsum.
  rewrite (nth_map_any _ 0 (Bin 0 0)) by auto. field. auto.
Qed.

(** band integrals *)
Definition clamp lo hi x := Rmax lo (Rmin hi x).
Lemma indicator_int (a b y lo hi : R) : a < b -> lo <= hi ->
  is_RInt (fun x => if Rle_dec a x then if Rlt_dec x b then y else 0 else 0) lo hi (y * (clamp lo hi b - clamp lo hi a)).
Proof.
  intros Hab Hlh. set (f := fun x => _). set (a' := clamp lo hi a). set (b' := clamp lo hi b).
  assert (HA: lo <= a' /\ a' <= b' /\ b' <= hi /\ (lo < a' -> a' <= a) /\ (a' < hi -> a <= a') /\ (lo < b' -> b' <= b) /\ (b' < hi -> b <= b')).
  { unfold a', b', clamp, Rmax, Rmin. repeat destruct (Rle_dec _ _); repeat split; intros; lra. }
  destruct HA as (H1 & H2 & H3 & H4 & H5 & H6 & H7).
  assert (C: forall u v c, u <= v -> (forall x, u < x < v -> f x = c) -> is_RInt f u v ((v - u) * c)).
  { intros u v c Huv Hc. apply (is_RInt_ext (fun _ => c)); [|apply (is_RInt_const u v c)].
    intros x Hx. rewrite Rmin_left, Rmax_right in Hx by lra. symmetry. apply Hc. lra. }
  replace (y * (b' - a')) with (((a' - lo) * 0 + (b' - a') * y) + (hi - b') * 0) by ring.
  apply (is_RInt_Chasles (V:=R_NormedModule) f lo b' hi); [apply (is_RInt_Chasles (V:=R_NormedModule) f lo a' b')|]; apply C; auto; intros x Hx; unfold f; destruct (Rle_dec a x), (Rlt_dec x b); auto; exfalso.
  - assert (a' <= a) by (apply H4; lra). lra.
  - assert (b' <= b) by (apply H6; lra). lra.
  - assert (a <= a') by (apply H5; lra). lra.
  - assert (a <= a') by (apply H5; lra). lra.
  - assert (b <= b') by (apply H7; lra). lra.
Qed.
Lemma band_fold l v lo hi acc : fold_left (fun acc p => let b := fst p in
    if Rleb (b_max b) lo || Rleb hi (b_min b) then acc else acc + snd p * (Rmin (b_max b) hi - Rmax (b_min b) lo)) (combine l v) acc
  = acc + integrate_over_band l v lo hi.
Proof.
  unfold integrate_over_band. generalize (combine l v). intros c. revert acc. induction c as [|p c IH]; intros acc; cbn; [lra|].
  destruct (_ || _); [apply IH|]. rewrite IH. rewrite (IH (0 + _)). lra.
Qed.
Lemma zero_int lo hi : is_RInt (fun _ : R => 0) lo hi 0.
Proof. pose proof (is_RInt_const (V:=R_NormedModule) lo hi 0) as H. unfold scal in H; cbn in H. unfold mult in H; cbn in H. rewrite Rmult_0_r in H. exact H. Qed.
Lemma band_int l : positive_widths l -> forall v lo hi, lo <= hi -> is_RInt (step_fn l v) lo hi (integrate_over_band l v lo hi).
Proof.
  induction l as [|b l IH]; intros HP v lo hi Hlh.
  - cbn. apply zero_int.
  - destruct v as [|y v].
    + cbn. apply zero_int.
    + assert (Hb: b_min b < b_max b) by (apply HP; left; auto).
      unfold integrate_over_band. cbn [combine fold_left]. rewrite band_fold. cbn [fst snd].
      replace (if Rleb (b_max b) lo || Rleb hi (b_min b) then 0 else 0 + y * (Rmin (b_max b) hi - Rmax (b_min b) lo)) with (y * (clamp lo hi (b_max b) - clamp lo hi (b_min b))).
      * cbn [step_fn]. apply (is_RInt_plus (V:=R_NormedModule) (fun x => if Rle_dec (b_min b) x then if Rlt_dec x (b_max b) then y else 0 else 0) (step_fn l v)).
        -- apply indicator_int; auto.
        -- apply IH; auto. intros c Hc. apply HP. right. auto.
      * assert (HE: clamp lo hi (b_max b) - clamp lo hi (b_min b) = if Rleb (b_max b) lo || Rleb hi (b_min b) then 0 else Rmin (b_max b) hi - Rmax (b_min b) lo).
        { unfold clamp, Rmax, Rmin. destruct (Rleb (b_max b) lo) eqn:E1, (Rleb hi (b_min b)) eqn:E2; cbn [orb]; rb; repeat destruct (Rle_dec _ _); lra. }
        rewrite HE. destruct (_ || _); ring.
Qed.
Lemma integrate_bins_rsum l v : integrate_bins l v = rsum (map (fun p => snd p * b_width (fst p)) (combine l v)).
Proof. unfold integrate_bins. apply sum_rsum. Qed.
Lemma band_covering l v lo hi : positive_widths l -> (forall b, In b l -> lo <= b_min b /\ b_max b <= hi) -> integrate_over_band l v lo hi = integrate_bins l v.
Proof.
  rewrite integrate_bins_rsum. revert v. induction l as [|b l IH]; intros v HP HC; [reflexivity|]. destruct v as [|y v]; [reflexivity|].
  unfold integrate_over_band. cbn [combine fold_left map rsum fst snd]. rewrite band_fold. rewrite IH.
  - f_equal. destruct (HC b (or_introl eq_refl)) as [H1 H2]. pose proof (HP b (or_introl eq_refl)) as H3.
    destruct (Rleb (b_max b) lo) eqn:E1, (Rleb hi (b_min b)) eqn:E2; cbn [orb]; rb; try lra.
    rewrite Rmin_left, Rmax_left by lra. unfold b_width. lra.
  - intros c Hc; apply HP; right; auto.
  - intros c Hc; apply HC; right; auto.
Qed.
Lemma band_additive l v a b c : positive_widths l -> a <= b -> b <= c -> integrate_over_band l v a c = integrate_over_band l v a b + integrate_over_band l v b c.
Proof.
  intros HP Hab Hbc.
  assert (H1: is_RInt (step_fn l v) a c (integrate_over_band l v a b + integrate_over_band l v b c)) by (apply (is_RInt_Chasles (V:=R_NormedModule) (step_fn l v) a b c); apply band_int; auto).
  assert (H2: is_RInt (step_fn l v) a c (integrate_over_band l v a c)) by (apply band_int; auto; lra).
  rewrite <- (is_RInt_unique _ _ _ _ H1). symmetry. rewrite <- (is_RInt_unique _ _ _ _ H2). reflexivity.
Qed.

(** physics *)
Lemma fold_telescope (g G : nat -> R) n acc : (forall i, (i < n)%nat -> g i = G (i + 1)%nat - G i) ->
  fold_left (fun a i => a + g i) (seq 0 n) acc = acc + (G n - G 0%nat).
Proof.
  induction n as [|n IH]; intros H; [cbn; lra|]. rewrite seq_S, fold_left_app. cbn [fold_left].
  rewrite IH by (intros; apply H; lia). cbn [Nat.add]. rewrite (H n) by lia. replace (n + 1)%nat with (S n) by lia. lra.
Qed.
Lemma trapezoid_affine x m c : x <> [] -> trapezoid x (map (fun t => m * t + c) x) =
  m * ((nth (List.length x - 1) x 0) ^ 2 - (nth 0 x 0) ^ 2) / 2 + c * (nth (List.length x - 1) x 0 - nth 0 x 0).
Proof.
  intros Hx. unfold trapezoid.
  rewrite (fold_telescope _ (fun i => m * (nth i x 0) ^ 2 / 2 + c * nth i x 0)).
  - field.
  - intros i Hi. assert (List.length x <> 0%nat) by (destruct x; cbn; congruence).
    rewrite !(nth_map_any (fun t => m * t + c) 0 0 x) by lia. field.
Qed.
Lemma fold_pos (g : nat -> R) n acc : (forall i, (i < n)%nat -> 0 < g i) -> (0 < n)%nat -> acc < fold_left (fun a i => a + g i) (seq 0 n) acc.
Proof.
  intros H Hn. destruct n as [|n]; [lia|]. clear Hn. induction n as [|n IH].
  - cbn. specialize (H 0%nat ltac:(lia)). lra.
  - rewrite seq_S, fold_left_app. cbn [fold_left]. specialize (IH ltac:(intros; apply H; lia)).
    assert (0 < g (0 + S n)%nat) by (apply H; cbn; lia). lra.
Qed.
Lemma consts_pos : 0 < H_PLANCK /\ 0 < SPEED_OF_LIGHT /\ 0 < K_BOLTZ.
Proof. unfold H_PLANCK, SPEED_OF_LIGHT, K_BOLTZ. split; [|split]; try lra; apply Rdiv_lt_0_compat; try lra; apply pow_lt; lra. Qed.
Lemma planck_den t lam : 0 < t -> 0 < lam -> 1 < exp (H_PLANCK * SPEED_OF_LIGHT / K_BOLTZ / (lam * t)).
Proof.
  intros Ht Hl. destruct consts_pos as (H1 & H2 & H3). rewrite <- exp_0. apply exp_increasing.
  apply Rdiv_lt_0_compat; [apply Rdiv_lt_0_compat; auto; apply Rmult_lt_0_compat; auto|apply Rmult_lt_0_compat; auto].
Qed.
Lemma planck_pos t lam : 0 < t -> 0 < lam -> 0 < planck t lam.
Proof.
  intros Ht Hl. pose proof (planck_den t lam Ht Hl). destruct consts_pos as (H1 & H2 & H3). unfold planck.
  apply Rdiv_lt_0_compat; [apply Rdiv_lt_0_compat; [|apply pow_lt; auto]|lra]. repeat apply Rmult_lt_0_compat; lra.
Qed.
Lemma planck_increasing t t' lam : 0 < t -> t < t' -> 0 < lam -> planck t lam < planck t' lam.
Proof.
  intros Ht Htt Hl. pose proof (planck_den t lam Ht Hl) as D1. pose proof (planck_den t' lam ltac:(lra) Hl) as D2.
  destruct consts_pos as (H1 & H2 & H3). unfold planck.
  set (c2 := H_PLANCK * SPEED_OF_LIGHT / K_BOLTZ) in *.
  assert (Hc2: 0 < c2) by (unfold c2; apply Rdiv_lt_0_compat; auto; apply Rmult_lt_0_compat; auto).
  assert (HE: exp (c2 / (lam * t')) < exp (c2 / (lam * t))).
  { apply exp_increasing. unfold Rdiv. apply Rmult_lt_compat_l; auto. apply Rinv_lt_contravar; [|apply Rmult_lt_compat_l; lra]. repeat apply Rmult_lt_0_compat; lra. }
  unfold Rdiv at 1 3. apply Rmult_lt_compat_l.
  - apply Rdiv_lt_0_compat; [|apply pow_lt; auto]. repeat apply Rmult_lt_0_compat; lra.
  - apply Rinv_lt_contravar; [apply Rmult_lt_0_compat; lra|lra].
Qed.
Lemma all_some_map {A} (l : list A) : all_some (map Some l) = Some l.
Proof. induction l as [|a l IH]; cbn; [auto|rewrite IH; auto]. Qed.
Definition lin_real lo hi n : list R := map (fun i => lo + INR i * ((hi - lo) / INR (n - 1))) (seq 0 n).
Lemma linspace_some lo hi n : n <> 1%nat -> linspace lo hi n = map Some (lin_real lo hi n).
Proof. intros H. unfold linspace, lin_real. destruct n as [|[|n]]; [reflexivity|congruence|]. rewrite map_map. reflexivity. Qed.
Lemma lin_real_length lo hi n : List.length (lin_real lo hi n) = n.
Proof. unfold lin_real. rewrite map_length, seq_length. reflexivity. Qed.
Lemma lin_real_nth lo hi n i : (i < n)%nat -> nth i (lin_real lo hi n) 0 = lo + INR i * ((hi - lo) / INR (n - 1)).
Proof. intros H. unfold lin_real. rewrite nth_map_seq by auto. reflexivity. Qed.
Lemma lin_step_pos lo hi n : lo < hi -> (2 <= n)%nat -> 0 < (hi - lo) / INR (n - 1).
Proof. intros H Hn. apply Rdiv_lt_0_compat; [lra|]. apply lt_0_INR. lia. Qed.
Lemma black_body_positive t b n : 0 < t -> 0 < b_min b -> b_min b < b_max b -> (2 <= n)%nat -> exists r, black_body_bin t b n = Ok r /\ 0 < r.
Proof.
  intros Ht H0 Hb Hn. unfold black_body_bin. rewrite linspace_some by lia. rewrite all_some_map. unfold integrate.
  rewrite map_length, lin_real_length. destruct (Nat.eqb_spec n 0); [lia|]. destruct (Nat.eqb_spec n 1); [lia|]. rewrite Nat.ltb_irrefl.
  eexists. split; [reflexivity|]. unfold trapezoid. rewrite lin_real_length. apply fold_pos; [|lia].
  intros i Hi. pose proof (lin_step_pos _ _ n Hb Hn) as HS.
  rewrite !(nth_map_any (planck t) 0 0) by (rewrite lin_real_length; lia). rewrite !lin_real_nth by lia.
  rewrite plus_INR. cbn [INR]. assert (0 <= INR i) by apply pos_INR.
  assert (0 < planck t (b_min b + INR i * ((b_max b - b_min b) / INR (n - 1)))) by (apply planck_pos; nra).
  assert (0 < planck t (b_min b + (INR i + 1) * ((b_max b - b_min b) / INR (n - 1)))) by (apply planck_pos; nra).
  apply Rmult_lt_0_compat; nra.
Qed.

(** aberration *)
Definition beta_of (v : vec3) : vec3 := vscale (/ SPEED_OF_LIGHT) v.
Lemma exists_perp v : exists u, dot u u = 1 /\ dot u v = 0.
Proof.
  destruct (Req_dec (vx v * vx v + vy v * vy v) 0) as [H|H].
  - exists (V3 1 0 0). unfold dot; cbn. split; [ring|]. assert (vx v * vx v = 0) by nra. assert (vx v = 0) by nra. lra.
  - assert (HP: 0 < vx v * vx v + vy v * vy v) by nra.
    set (s := / sqrt (vx v * vx v + vy v * vy v)).
    assert (Hs: s * s * (vx v * vx v + vy v * vy v) = 1).
    { unfold s. assert (0 < sqrt (vx v * vx v + vy v * vy v)) by (apply sqrt_lt_R0; auto).
      rewrite <- (sqrt_sqrt (vx v * vx v + vy v * vy v)) at 3 by lra. field. lra. }
    exists (V3 (s * vy v) (- (s * vx v)) 0). unfold dot; cbn. split; [|ring]. rewrite <- Hs. ring.
Qed.
Lemma gamma_facts b : 0 <= b -> b < 1 -> let g := 1 / sqrt (1 - b) in 1 <= g /\ g * g * (1 - b) = 1 /\ 1 - b <= / g /\ / g <= 1.
Proof.
  intros H0 H1 g. assert (HS: 0 < sqrt (1 - b)) by (apply sqrt_lt_R0; lra).
  assert (HQ: sqrt (1 - b) * sqrt (1 - b) = 1 - b) by (apply sqrt_sqrt; lra).
  assert (HL: sqrt (1 - b) <= 1) by nra.
  assert (Hg: / g = sqrt (1 - b)) by (unfold g; field; lra).
  split; [|split; [|split]].
  - unfold g. apply (Rmult_le_reg_r (sqrt (1 - b))); auto. unfold Rdiv. rewrite Rmult_assoc, Rinv_l by lra. lra.
  - unfold g. transitivity ((1 - b) / (sqrt (1 - b) * sqrt (1 - b))); [field; lra|]. rewrite HQ. field. lra.
  - rewrite Hg. nra.
  - rewrite Hg. auto.
Qed.
Lemma dot_self_nonneg a : 0 <= dot a a.
Proof. unfold dot. nra. Qed.
Lemma cauchy_dot u b : dot u u = 1 -> (dot u b) ^ 2 <= dot b b.
Proof.
  intros H. pose proof (dot_self_nonneg (vsub b (vscale (dot u b) u))) as H0.
  assert (H1: dot (vsub b (vscale (dot u b) u)) (vsub b (vscale (dot u b) u)) = dot b b - 2 * (dot u b) ^ 2 + (dot u b) ^ 2 * dot u u) by (unfold dot, vsub, vscale; cbn; ring).
  rewrite H in H1. lra.
Qed.
