(* C52, C53, C81, C82, C83: spectra, photometry helpers and aberration. *)
From Coq Require Import Reals List Lra Lia Psatz.
From Verif Require Import Common Vec3 SpectralModel SpectralSpec SpectralProofs SpectralProofs2.
From Coquelicot Require Import Coquelicot.
Import ListNotations.
Open Scope R_scope.

(** C52 *)
(* an accepted layout has the requested number of bins, every bin has positive width and no wavelength is inside two of them *)
Theorem C52_accepted_layouts : forall n args l, init_bins n args = Ok l ->
  List.length l = n /\ (forall b, In b l -> b_min b < b_max b) /\
  (forall i j x, (i < List.length l)%nat -> (j < List.length l)%nat -> i <> j -> inside (nth i l (Bin 0 0)) x -> ~ inside (nth j l (Bin 0 0)) x).
Proof. exact init_bins_ok. Qed.
Print Assumptions C52_accepted_layouts.

(* the uniform layout (two numbers, in nanometres) is accepted exactly for lo < hi; it splits [lo, hi] into n adjacent bins of equal width *)
Theorem C52_uniform_layout : forall n lo hi, (0 < n)%nat ->
  (lo < hi <-> exists l, init_bins n [lo; hi] = Ok l) /\
  forall l, init_bins n [lo; hi] = Ok l ->
    b_min (nth 0 l (Bin 0 0)) = lo * nano /\ b_max (nth (n - 1) l (Bin 0 0)) = hi * nano /\
    (forall i, (S i < n)%nat -> b_max (nth i l (Bin 0 0)) = b_min (nth (S i) l (Bin 0 0))) /\
    (forall i, (i < n)%nat -> b_width (nth i l (Bin 0 0)) = (hi - lo) * nano / INR n).
Proof.
  intros n lo hi Hn. assert (HI: 0 < INR n) by (apply lt_0_INR; lia).
  assert (HE: init_bins n [lo; hi] = check_bins (init_uniform n lo hi)) by (unfold init_bins; cbn; destruct (Nat.eqb_spec n 0); [lia|reflexivity]).
  rewrite HE. split.
  - rewrite <- uniform_ok by exact Hn. split; [eauto|]. intros [l Hl]. revert Hl. unfold check_bins. destruct (_ || _); congruence.
  - intros l Hl. assert (l = init_uniform n lo hi) as -> by (revert Hl; unfold check_bins; destruct (_ || _); congruence).
    repeat split.
    + rewrite uniform_nth by lia. cbn [b_min INR]. ring.
    + rewrite uniform_nth by lia. cbn [b_max]. replace (n - 1 + 1)%nat with n by lia. field. lra.
    + intros i Hi. rewrite !uniform_nth by lia. cbn [b_max b_min]. replace (i + 1)%nat with (S i) by lia. reflexivity.
    + intros i Hi. rewrite uniform_nth by lia. unfold b_width. cbn [b_max b_min]. rewrite plus_INR. cbn [INR]. field. lra.
Qed.
Print Assumptions C52_uniform_layout.

(* a list of n + 1 edges (n >= 2) is accepted exactly when it is strictly ascending *)
Theorem C52_edge_layout : forall n args, (2 <= n)%nat -> List.length args = (n + 1)%nat ->
  ((exists l, init_bins n args = Ok l) <-> forall i, (i < n)%nat -> nth i args 0 < nth (i + 1) args 0) /\
  forall l, init_bins n args = Ok l -> forall i, (i < n)%nat -> nth i l (Bin 0 0) = Bin (nth i args 0 * nano) (nth (i + 1) args 0 * nano).
Proof.
  intros n args Hn Hl.
  assert (HE: init_bins n args = check_bins (init_edges n args)).
  { unfold init_bins. rewrite Hl. destruct (Nat.eqb_spec (n + 1) 2); [lia|]. destruct (Nat.eqb_spec (n + 1) (2 * n)); [lia|]. rewrite Nat.eqb_refl. reflexivity. }
  rewrite HE. split.
  - rewrite <- edges_ok. split; [|eauto]. intros [l H]. revert H. unfold check_bins. destruct (_ || _); congruence.
  - intros l H i Hi. assert (l = init_edges n args) as -> by (revert H; unfold check_bins; destruct (_ || _); congruence).
    apply edges_nth; auto.
Qed.
Print Assumptions C52_edge_layout.

(* pairs that overlap are a compile-time error *)
Theorem C52_overlap_rejected : forall n args i j x, (n <> 1)%nat -> List.length args = (2 * n)%nat -> (i < n)%nat -> (j < n)%nat -> i <> j ->
  nth (2 * i) args 0 * nano < x < nth (2 * i + 1) args 0 * nano -> nth (2 * j) args 0 * nano < x < nth (2 * j + 1) args 0 * nano ->
  init_bins n args = Throws.
Proof.
  intros n args i j x Hn Hl Hi Hj Hne Hx1 Hx2. unfold init_bins. rewrite Hl. destruct (Nat.eqb_spec (2 * n) 2); [lia|]. rewrite Nat.eqb_refl.
  apply check_bins_throws. intros [_ HD]. apply (HD i j x); auto; unfold init_pairs; rewrite ?map_length, ?seq_length; auto;
    unfold inside; rewrite nth_map_seq by auto; cbn [b_min b_max]; lra.
Qed.
Print Assumptions C52_overlap_rejected.

(* from_total distributes the whole total, in proportion to the widths *)
Theorem C52_from_total : forall n args l t, (0 < n)%nat -> init_bins n args = Ok l ->
  List.length (from_total l t) = n /\ rsum (from_total l t) = t /\ total (from_total l t) = t /\
  (forall i, (i < n)%nat -> nth i (from_total l t) 0 * rsum (map b_width l) = t * b_width (nth i l (Bin 0 0))) /\
  (0 <= t -> forall x, In x (from_total l t) -> 0 <= x).
Proof.
  intros n args l t Hn H. apply init_bins_ok in H as (HL & HP & _).
  assert (Hne: l <> []) by (destruct l; cbn in HL; [lia|congruence]).
  pose proof (from_total_sum l t Hne HP) as HS.
  split; [unfold from_total; rewrite map_length; auto|]. split; [exact HS|]. split; [unfold total; rewrite sum_rsum; exact HS|]. split.
  - intros i Hi. destruct (from_total_nth l t i ltac:(lia)) as [H|H]; auto. exfalso.
    assert (0 < rsum (map b_width l)); [|lra]. apply rsum_pos; [destruct l; cbn; congruence|]. intros x Hx. apply in_map_iff in Hx as (c & <- & Hc). specialize (HP c Hc). unfold b_width. lra.
  - intros Ht x Hx. eapply from_total_nonneg; eauto.
Qed.
Print Assumptions C52_from_total.

(* arithmetic acts bin by bin *)
Theorem C52_elementwise : forall f a b i, List.length a = List.length b -> (i < List.length a)%nat ->
  List.length (zip f a b) = List.length a /\ nth i (zip f a b) 0 = f (nth i a 0) (nth i b 0) /\
  forall g, List.length (each g a) = List.length a /\ nth i (each g a) 0 = g (nth i a 0).
Proof.
  intros f a b i Hl Hi. unfold zip, each. rewrite map_length, combine_length. split; [lia|]. split.
  - rewrite (nth_map_any _ 0 (0, 0)) by (rewrite combine_length; lia). rewrite combine_nth by auto. reflexivity.
  - intros g. rewrite map_length. split; auto. apply nth_map_any; auto.
Qed.
Print Assumptions C52_elementwise.

(* total() is additive; max() and min() are attained bounds *)
Theorem C52_total_max_min : forall a b, List.length a = List.length b -> total (zip Rplus a b) = total a + total b /\
  (a <> [] -> In (vmax a) a /\ In (vmin a) a /\ forall x, In x a -> vmin a <= x <= vmax a).
Proof.
  intros a b Hl. split.
  - unfold total. rewrite !sum_rsum. revert b Hl. induction a as [|x a IH]; intros [|y b] Hl; try discriminate; cbn; [lra|].
    unfold zip in IH. rewrite IH by (cbn in Hl; lia). lra.
  - intros Hn. destruct a as [|x t]; [congruence|]. clear. cbn [vmax vmin].
    assert (HM: forall t m, let r := fold_left (fun m y => if Rltb m y then y else m) t m in (r = m \/ In r t) /\ m <= r /\ forall y, In y t -> y <= r).
    { clear. induction t as [|y t IH]; intros m; cbn; [split; [auto|split; [lra|tauto]]|].
      destruct (Rltb m y) eqn:E; rb.
      - destruct (IH y) as (H1 & H2 & H3). split; [destruct H1; auto|]. split; [lra|]. intros z [->|Hz]; [exact H2|auto].
      - destruct (IH m) as (H1 & H2 & H3). split; [destruct H1; auto|]. split; [lra|]. intros z [->|Hz]; [lra|auto]. }
    assert (Hm: forall t m, let r := fold_left (fun m y => if Rltb y m then y else m) t m in (r = m \/ In r t) /\ r <= m /\ forall y, In y t -> r <= y).
    { clear. induction t as [|y t IH]; intros m; cbn; [split; [auto|split; [lra|tauto]]|].
      destruct (Rltb y m) eqn:E; rb.
      - destruct (IH y) as (H1 & H2 & H3). split; [destruct H1; auto|]. split; [lra|]. intros z [->|Hz]; [exact H2|auto].
      - destruct (IH m) as (H1 & H2 & H3). split; [destruct H1; auto|]. split; [lra|]. intros z [->|Hz]; [lra|auto]. }
    specialize (HM t x). specialize (Hm t x). cbn in HM, Hm. destruct HM as (A1 & A2 & A3), Hm as (B1 & B2 & B3).
    split; [destruct A1 as [->|A1]; [left; auto|right; auto]|]. split; [destruct B1 as [->|B1]; [left; auto|right; auto]|].
    intros z [<-|Hz]; [lra|]. split; auto.
Qed.
Print Assumptions C52_total_max_min.

(* the band integral is the integral of the piecewise constant spectrum; over a band that covers all bins it is integrate() *)
Theorem C52_band_integral : forall n args l v lo hi, init_bins n args = Ok l -> lo <= hi ->
  is_RInt (step_fn l v) lo hi (integrate_over_band l v lo hi) /\
  (forall mid, lo <= mid <= hi -> integrate_over_band l v lo hi = integrate_over_band l v lo mid + integrate_over_band l v mid hi) /\
  ((forall b, In b l -> lo <= b_min b /\ b_max b <= hi) -> integrate_over_band l v lo hi = integrate_bins l v) /\
  integrate_bins l v = rsum (map (fun p => snd p * b_width (fst p)) (combine l v)).
Proof.
  intros n args l v lo hi H Hlh. apply init_bins_ok in H as (_ & HP & _). split; [apply band_int; auto|]. split; [|split].
  - intros mid Hm. apply band_additive; auto; lra.
  - intros HC. apply band_covering; auto.
  - apply integrate_bins_rsum.
Qed.
Print Assumptions C52_band_integral.

(* valid(): no negative bin; valid_ratio(): every bin in [0, 1] *)
Theorem C52_validity : forall v, (valid v = true <-> forall x, In x v -> 0 <= x) /\ (valid_ratio v = true <-> forall x, In x v -> 0 <= x <= 1).
Proof.
  intros v. unfold valid, valid_ratio. rewrite !forallb_forall. split; split; intros H x Hx; specialize (H x Hx).
  - apply Bool.negb_true_iff in H. rb. auto.
  - apply Bool.negb_true_iff. apply Rltb_false. auto.
  - apply Bool.negb_true_iff, Bool.orb_false_iff in H as [H1 H2]. rb. lra.
  - apply Bool.negb_true_iff, Bool.orb_false_iff. split; apply Rltb_false; lra.
Qed.
Print Assumptions C52_validity.

(* refuted: SpectralBins{a, b} for more than two bins leaves bins unset *)
Theorem C52_refuted_short_list : forall n l, (1 < List.length l)%nat -> (List.length l < n)%nat ->
  exists i, (i < n)%nat /\ nth i (init_list n l) (Some 0) = None.
Proof.
  intros n l H1 H2. exists (List.length l). split; auto. destruct l as [|a [|b t]]; cbn in H1; try lia.
  unfold init_list. rewrite nth_map_seq by auto. apply nth_error_None. auto.
Qed.
Print Assumptions C52_refuted_short_list.
Theorem C52_full_list : forall n l i, (List.length l = n \/ List.length l = 1%nat) -> (i < n)%nat ->
  nth i (init_list n l) None = Some (nth (if Nat.eqb (List.length l) 1 then 0 else i) l 0).
Proof.
  intros n l i H Hi. destruct l as [|a [|b t]].
  - destruct H as [<-|H]; [cbn in Hi; lia|discriminate].
  - cbn. clear H. revert i Hi. induction n as [|n IH]; intros [|i] Hi; cbn; try lia; auto. apply IH. lia.
  - unfold init_list. rewrite nth_map_seq by auto. destruct H as [H|H]; [|discriminate].
    change (Nat.eqb (List.length (a :: b :: t)) 1) with false. cbv iota. apply nth_error_nth'. lia.
Qed.
Print Assumptions C52_full_list.

Example C52_case : exists l, init_bins 8 [400; 700] = Ok l.
Proof. apply C52_uniform_layout; [lia|lra]. Qed.
Example C52_edge_case : exists l, init_bins 3 [400; 500; 600; 750] = Ok l.
Proof. apply C52_edge_layout; [lia|reflexivity|]. intros [|[|[|i]]] Hi; cbn; lra || lia. Qed.
Example C52_overlap_case : init_bins 2 [400; 600; 500; 700] = Throws.
Proof. apply (C52_overlap_rejected 2 _ 0 1 (550 * nano)); auto; cbn; pose proof nano_pos; nra. Qed.

(** C81: sampled data *)
Theorem C81_rejects : forall l w v, integrate_over_data l w v = Throws <-> List.length w <> List.length v \/ w = [] \/ ~ ascending_wavelengths w.
Proof.
  intros l w v. unfold integrate_over_data. rewrite <- ascending_iff.
  destruct (Nat.eqb_spec (List.length w) (List.length v)) as [E|E]; cbn; [|split; auto].
  destruct (Nat.eqb_spec (List.length w) 0) as [E0|E0].
  - apply length_zero_iff_nil in E0. split; auto.
  - destruct (ascending w) eqn:EA; cbn.
    + split; [discriminate|]. intros [H|[H|H]]; [congruence|subst; cbn in E0; congruence|congruence].
    + split; auto.
Qed.
Print Assumptions C81_rejects.
(* a bin whose band is covered by the samples receives the mean over the bin of the piecewise linear curve through the samples *)
Theorem C81_covered_bins_partial : forall l w v r, integrate_over_data l w v = Ok r -> (forall b, In b l -> b_min b < b_max b) ->
  List.length r = List.length l /\
  forall i, (i < List.length l)%nat -> let lo := b_min (nth i l (Bin 0 0)) * 10 ^ 9 in let hi := b_max (nth i l (Bin 0 0)) * 10 ^ 9 in
    nth 0 w 0 <= lo -> hi <= nth (List.length w - 1) w 0 -> mean_of (curve (combine w v)) lo hi (nth i r 0).
Proof.
  intros l w v r H HP. unfold integrate_over_data in H. rewrite (proj1 (ascending_iff w)) in H || idtac.
  destruct (Nat.eqb_spec (List.length w) (List.length v)) as [E|E]; cbn [negb] in H; [|discriminate].
  destruct (Nat.eqb_spec (List.length w) 0) as [E0|E0]; [discriminate|].
  destruct (ascending w) eqn:EA; cbn [negb] in H; [|discriminate]. apply ascending_iff in EA. injection H as <-. rewrite map_length. split; auto.
  intros i Hi lo hi Hlo Hhi. rewrite (nth_map_any _ 0 (Bin 0 0)) by auto. fold lo hi.
  assert (Hlh: lo < hi) by (unfold lo, hi; pose proof (HP _ (nth_In l (Bin 0 0) Hi)); lra).
  destruct (average_bin_spec w v lo hi EA (eq_sym E) ltac:(lia) Hlh) as [_ HA].
  rewrite Rmax_left in HA by auto. apply HA; lra.
Qed.
Print Assumptions C81_covered_bins_partial.
(* what the other bins receive: 0 without any overlap, otherwise the part before the first sample counts as 0 and the last sample is extended *)
Theorem C81_other_bins : forall l w v r i, integrate_over_data l w v = Ok r -> (forall b, In b l -> b_min b < b_max b) -> (i < List.length l)%nat ->
  let lo := b_min (nth i l (Bin 0 0)) * 10 ^ 9 in let hi := b_max (nth i l (Bin 0 0)) * 10 ^ 9 in
  (nth (List.length w - 1) w 0 < lo \/ hi <= nth 0 w 0 -> nth i r 0 = 0) /\
  (lo <= nth (List.length w - 1) w 0 -> nth 0 w 0 < hi -> is_RInt (curve (combine w v)) (Rmax lo (nth 0 w 0)) hi (nth i r 0 * (hi - lo))).
Proof.
  intros l w v r i H HP Hi lo hi. unfold integrate_over_data in H.
  destruct (Nat.eqb_spec (List.length w) (List.length v)) as [E|E]; cbn [negb] in H; [|discriminate].
  destruct (Nat.eqb_spec (List.length w) 0) as [E0|E0]; [discriminate|].
  destruct (ascending w) eqn:EA; cbn [negb] in H; [|discriminate]. apply ascending_iff in EA. injection H as <-.
  rewrite (nth_map_any _ 0 (Bin 0 0)) by auto. fold lo hi.
  assert (Hlh: lo < hi) by (unfold lo, hi; pose proof (HP _ (nth_In l (Bin 0 0) Hi)); lra).
  exact (average_bin_spec w v lo hi EA (eq_sym E) ltac:(lia) Hlh).
Qed.
Print Assumptions C81_other_bins.
(* refuted: where a bin reaches beyond the samples the result is not the mean of the sampled curve taken as 0 outside; a flat spectrum sampled
   on the lower half of the bin gives 1, sampled on the upper half it gives 1/2 *)
Theorem C81_refuted_right_gap :
  let l := (Bin 0 (2 * nano) :: nil) in
  integrate_over_data l [0; 1] [1; 1] = Ok (1 :: nil) /\ integrate_over_data l [1; 2] [1; 1] = Ok (1 / 2 :: nil) /\ ~ mean_of (sampled [(0, 1); (1, 1)]) 0 2 1.
Proof.
  cbv zeta. assert (HN: forall a, a * nano * 10 ^ 9 = a) by (intros a; unfold nano; field; lra).
  assert (A: forall a b : R, 0 <= a -> a < b -> integrate_over_data (Bin 0 (2 * nano) :: nil) [a; b] [1; 1] = Ok (average_bin [a; b] [1; 1] 0 2 :: nil)).
  { intros a b Ha Hab. unfold integrate_over_data. cbn [List.length Nat.eqb negb ascending]. rewrite (proj2 (Rltb_true a b) Hab). cbn [andb negb map b_min b_max].
    rewrite HN. rewrite Rmult_0_l. reflexivity. }
  rewrite !A by lra.
  assert (T: forall a b, a < b -> Rltb a b = true) by (intros; apply Rltb_true; auto).
  assert (F: forall a b, b <= a -> Rltb a b = false) by (intros; apply Rltb_false; auto).
  assert (F': forall a b, b < a -> Rleb a b = false) by (intros; apply Rleb_false; auto).
  split; [|split].
  - do 2 f_equal. unfold average_bin, lower_bound. cbn [List.length lower_bound_loop Nat.eqb Nat.div Nat.divmod fst Nat.add nth Nat.sub].
    rewrite !(F 1 0), !(F 0 0), !(T 1 2) by lra. cbn [lower_bound_loop Nat.eqb Nat.div Nat.divmod fst Nat.add nth Nat.sub].
    rewrite ?(F 0 0) by lra. cbn [Nat.eqb nth Nat.ltb Nat.leb andb]. rewrite (F' 2 0) by lra. cbn [andb].
    cbn [walk List.length Nat.ltb Nat.leb Nat.add nth andb]. rewrite ?(T 0 2), ?(T 1 2) by lra. cbn [andb walk List.length Nat.ltb Nat.leb Nat.add nth fst snd]. rewrite ?(T 0 2), ?(T 1 2) by lra. cbn [andb walk List.length Nat.ltb Nat.leb Nat.add nth fst snd Nat.sub]. field.
  - do 2 f_equal. unfold average_bin, lower_bound. cbn [List.length lower_bound_loop Nat.eqb Nat.div Nat.divmod fst Nat.add nth Nat.sub].
    rewrite ?(F 2 0), ?(F 1 0), ?(F 2 2), ?(T 1 2) by lra. cbn [lower_bound_loop Nat.eqb Nat.div Nat.divmod fst Nat.add nth Nat.sub].
    rewrite ?(F 2 0), ?(F 1 0), ?(F 2 2), ?(T 1 2) by lra. cbn [lower_bound_loop Nat.eqb Nat.div Nat.divmod fst Nat.add nth Nat.sub Nat.ltb Nat.leb andb].
    rewrite ?(F' 2 1), ?(F 2 2), ?(T 1 2) by lra. cbn [andb].
    cbn [walk List.length Nat.ltb Nat.leb Nat.add nth andb]. rewrite ?(T 1 2), ?(F 2 2) by lra. cbn [andb walk List.length Nat.ltb Nat.leb Nat.add nth fst snd]. rewrite ?(T 1 2), ?(F 2 2) by lra. cbn [andb walk List.length Nat.ltb Nat.leb Nat.add nth fst snd Nat.sub lerp_value].
    unfold lerp_value. cbn [nth]. field.
  - unfold mean_of. intros H.
    assert (H2: is_RInt (sampled [(0, 1); (1, 1)]) 0 2 1).
    { replace 1 with (1 * (1 - 0) + 0) at 4 by ring.
      apply (is_RInt_Chasles (V:=R_NormedModule) _ 0 1 2).
      - apply (is_RInt_ext (fun _ => 1)).
        + intros x Hx. rewrite Rmin_left, Rmax_right in Hx by lra. unfold sampled. cbn [hd fst last].
          destruct (Rle_dec 0 x); [|lra]. destruct (Rle_dec x 1); [|lra]. rewrite curve_cons. destruct (Rlt_dec x 1); [|lra].
          assert (E: 1 + (1 - 1) * ((x - 0) / (1 - 0)) = 1) by field. symmetry. exact E.
        + replace (1 * (1 - 0)) with (scal (1 - 0) 1) by (unfold scal; cbn; unfold mult; cbn; ring). apply (is_RInt_const (V:=R_NormedModule)).
      - apply (is_RInt_ext (fun _ => 0)); [|apply zero_int].
        intros x Hx. rewrite Rmin_left, Rmax_right in Hx by lra. unfold sampled. cbn [hd fst last].
        destruct (Rle_dec 0 x); auto. destruct (Rle_dec x 1); [lra|auto]. }
    pose proof (is_RInt_unique _ _ _ _ H) as U1. pose proof (is_RInt_unique _ _ _ _ H2) as U2. rewrite U1 in U2. cbn in U2. lra.
Qed.
Print Assumptions C81_refuted_right_gap.
Example C81_case : ascending_wavelengths [400; 500; 600] /\ nth 0 [400; 500; 600] 0 <= 450 /\ 550 <= nth (3 - 1) [400; 500; 600] 0.
Proof. cbn. split; [|lra]. intros [|[|i]] Hi; cbn in *; try lra; lia. Qed.
