(* Proofs about trajectory arcs: interpolation, smoothness of the spline. *)
From Verif Require Import Vec3 ArcModel ArcSpec.

(** Polynomial arcs *)
Lemma poly_interp : forall (y : list R) (i : nat), (1 <= List.length y <= 3)%nat -> (i < List.length y)%nat ->
  evaluate_polynomial (build_polynomial y) (INR i / INR (List.length y - 1)) = nth i y 0.
Proof.
  intros y i Hl Hi.
  destruct y as [|a [|b [|c [|d r]]]]; cbn [List.length] in Hl, Hi; try lia.
  - assert (i = 0)%nat by lia. subst. reflexivity.
  - cbn [List.length Nat.sub]. destruct i as [|[|i]]; try lia; cbn; field.
  - cbn [List.length Nat.sub]. destruct i as [|[|[|i]]]; try lia; cbn; field.
Qed.

(** Gluing *)
Lemma deriv_ext : forall (f g : R -> R) x l, (forall z, f z = g z) -> derivable_pt_lim f x l -> derivable_pt_lim g x l.
Proof. intros f g x l E H eps He. destruct (H eps He) as [d D]. exists d. intros. rewrite <- !E. auto. Qed.

Lemma glue_deriv : forall (f p q : R -> R) x l e, 0 < e ->
  derivable_pt_lim p x l -> derivable_pt_lim q x l -> f x = p x -> f x = q x ->
  (forall z, Rabs (z - x) < e -> (z < x -> f z = p z) /\ (x <= z -> f z = q z)) ->
  derivable_pt_lim f x l.
Proof.
  intros f p q x l e He Hp Hq Hfp Hfq Hloc eps Heps.
  destruct (Hp eps Heps) as [d1 H1]. destruct (Hq eps Heps) as [d2 H2].
  assert (Hm : 0 < Rmin e (Rmin d1 d2)).
  { apply Rmin_glb_lt; [lra | apply Rmin_glb_lt; [apply cond_pos | apply cond_pos]]. }
  exists (mkposreal _ Hm). intros h Hh Hlt. cbn in Hlt.
  assert (Rabs h < e) by (eapply Rlt_le_trans; [exact Hlt | apply Rmin_l]).
  assert (Rabs h < d1) by (eapply Rlt_le_trans; [exact Hlt | eapply Rle_trans; [apply Rmin_r | apply Rmin_l]]).
  assert (Rabs h < d2) by (eapply Rlt_le_trans; [exact Hlt | eapply Rle_trans; [apply Rmin_r | apply Rmin_r]]).
  destruct (Hloc (x + h)) as [HA HB]. { replace (x + h - x) with h by ring. auto. }
  destruct (Rlt_le_dec (x + h) x).
  - rewrite HA by lra. rewrite Hfp. apply H1; auto.
  - rewrite HB by lra. rewrite Hfq. apply H2; auto.
Qed.

Lemma glue_cont : forall (f p q : R -> R) x e, 0 < e ->
  continuity_pt p x -> continuity_pt q x -> f x = p x -> f x = q x ->
  (forall z, Rabs (z - x) < e -> (z < x -> f z = p z) /\ (x <= z -> f z = q z)) ->
  continuity_pt f x.
Proof.
  intros f p q x e He Hp Hq Hfp Hfq Hloc eps Heps.
  destruct (Hp eps Heps) as (d1 & Hd1 & H1). destruct (Hq eps Heps) as (d2 & Hd2 & H2).
  exists (Rmin e (Rmin d1 d2)). split.
  { apply Rmin_glb_lt; [lra | apply Rmin_glb_lt; lra]. }
  intros z [HD Hz]. cbn in Hz |- *. unfold R_dist in *.
  assert (Rabs (z - x) < e) by (eapply Rlt_le_trans; [exact Hz | apply Rmin_l]).
  assert (Rabs (z - x) < d1) by (eapply Rlt_le_trans; [exact Hz | eapply Rle_trans; [apply Rmin_r | apply Rmin_l]]).
  assert (Rabs (z - x) < d2) by (eapply Rlt_le_trans; [exact Hz | eapply Rle_trans; [apply Rmin_r | apply Rmin_r]]).
  destruct (Hloc z) as [HA HB]; auto.
  destruct (Rlt_le_dec z x).
  - rewrite HA by lra. rewrite Hfp. apply H1. split; auto.
  - rewrite HB by lra. rewrite Hfq. apply H2. split; auto.
Qed.

(** Spline *)
Section S.
Variable n : nat.
Variable y : nat -> R.
Hypothesis Hn : (4 <= n)%nat.

Lemma n1_pos : 0 < INR (n - 1).
Proof. apply lt_0_INR. lia. Qed.
Lemma hh_eq : hh n = 1 / INR (n - 1).
Proof. unfold hh, knot. pose proof n1_pos. cbn [INR]. field. lra. Qed.
Lemma hh_pos : 0 < hh n.
Proof. rewrite hh_eq. pose proof n1_pos. apply Rdiv_lt_0_compat; lra. Qed.
Lemma knot_S : forall i, knot n (S i) = knot n i + hh n.
Proof. intros i. rewrite hh_eq. unfold knot. rewrite S_INR. field. pose proof n1_pos; lra. Qed.
Lemma knot_0 : knot n 0 = 0.
Proof. unfold knot. cbn. unfold Rdiv. ring. Qed.
Lemma knot_last : knot n (n - 1) = 1.
Proof. unfold knot. field. pose proof n1_pos; lra. Qed.
Lemma knot_lt : forall i j, (i < j)%nat -> knot n i < knot n j.
Proof.
  intros i j H. unfold knot. apply Rmult_lt_compat_r.
  - apply Rinv_0_lt_compat, n1_pos.
  - apply lt_INR; auto.
Qed.
Lemma knot_le : forall i j, (i <= j)%nat -> knot n i <= knot n j.
Proof. intros. destruct (Nat.eq_dec i j) as [->|]; [lra|]. apply Rlt_le, knot_lt. lia. Qed.
Lemma knot_nonneg : forall i, 0 <= knot n i.
Proof. intros. rewrite <- knot_0. apply knot_le. lia. Qed.

(* diagonal dominance survives the elimination *)
Lemma diag_ge : forall i, 3 * hh n <= diag n i.
Proof.
  pose proof hh_pos as Hh. induction i as [|i IH]; cbn [diag]; [lra|].
  assert (Hd : 0 < diag n i) by lra.
  assert (hh n / diag n i * hh n <= hh n).
  { apply Rle_trans with (1 * hh n); [|lra]. apply Rmult_le_compat_r; [lra|].
    apply Rmult_le_reg_r with (diag n i); auto. unfold Rdiv. rewrite Rmult_assoc, Rinv_l by lra. lra. }
  lra.
Qed.
Lemma diag_pos : forall i, 0 < diag n i.
Proof. intros. pose proof (diag_ge i). pose proof hh_pos. lra. Qed.

Lemma M_0 : M n y 0 = 0. Proof. reflexivity. Qed.
Lemma M_last : M n y (n - 1) = 0.
Proof. unfold M. destruct (Nat.eqb_spec (n - 1) 0); auto. rewrite Nat.leb_refl. auto. Qed.

Lemma back_row : forall j, (j < n - 2)%nat ->
  diag n j * M n y (S j) + hh n * M n y (S (S j)) = rhs n y j.
Proof.
  intros j Hj. unfold M at 1. cbn [Nat.eqb]. destruct (Nat.leb_spec (n - 1) (S j)); [lia|].
  replace (interior n - 1 - (S j - 1))%nat with (n - 3 - j)%nat by (unfold interior; lia).
  destruct (Nat.eq_dec (S (S j)) (n - 1)) as [E|E].
  - rewrite E, M_last. replace (n - 3 - j)%nat with 0%nat by lia. cbn [backs].
    replace (interior n - 1)%nat with j by (unfold interior; lia).
    field. pose proof (diag_pos j); lra.
  - unfold M. cbn [Nat.eqb]. destruct (Nat.leb_spec (n - 1) (S (S j))); [lia|].
    replace (interior n - 1 - (S (S j) - 1))%nat with (n - 3 - S j)%nat by (unfold interior; lia).
    replace (n - 3 - j)%nat with (S (n - 3 - S j)) by lia. cbn [backs].
    replace (interior n - 1 - S (n - 3 - S j))%nat with j by (unfold interior; lia).
    field. pose proof (diag_pos j); lra.
Qed.

(* the tridiagonal system is solved *)
Lemma tridiag : forall j, (j < n - 2)%nat ->
  hh n * M n y j + 4 * hh n * M n y (S j) + hh n * M n y (S (S j)) = rhs0 n y j.
Proof.
  intros j Hj. pose proof (back_row j Hj) as H. destruct j as [|j].
  - cbn [diag rhs] in H. rewrite M_0. lra.
  - pose proof (back_row j ltac:(lia)) as H0. cbn [diag rhs] in H.
    pose proof (diag_pos j) as Hd.
    assert (E : hh n / diag n j * rhs n y j = hh n * M n y (S j) + hh n / diag n j * hh n * M n y (S (S j))).
    { rewrite <- H0. field. lra. }
    lra.
Qed.

(* segment polynomial i, its first and second derivative, as functions of t *)
Definition P0 (i : nat) (t : R) : R :=
  seg_a y i + (t - knot n i) * (seg_b n y i + (t - knot n i) * (seg_c n y i + (t - knot n i) * seg_d n y i)).
Definition P1 (i : nat) (t : R) : R :=
  seg_b n y i + (t - knot n i) * (2 * seg_c n y i + (t - knot n i) * (3 * seg_d n y i)).
Definition P2 (i : nat) (t : R) : R := 2 * seg_c n y i + (t - knot n i) * (6 * seg_d n y i).

Lemma cubic_deriv : forall a b c d k t,
  derivable_pt_lim (fun t => a + (t - k) * (b + (t - k) * (c + (t - k) * d))) t
    (b + (t - k) * (2 * c + (t - k) * (3 * d))).
Proof.
  intros.
  assert (Hu : derivable_pt_lim (fun t => t - k) t 1).
  { replace 1 with (1 - 0) by ring. apply (derivable_pt_lim_minus id (fct_cte k)).
    apply derivable_pt_lim_id. apply derivable_pt_lim_const. }
  assert (Hstep : forall (g : R -> R) a l, derivable_pt_lim g t l ->
     derivable_pt_lim (fun t => a + (t - k) * g t) t (g t + (t - k) * l)).
  { intros g a0 l Hg. replace (g t + (t - k) * l) with (0 + (1 * g t + (t - k) * l)) by ring.
    apply (derivable_pt_lim_plus (fct_cte a0) (mult_fct (fun t => t - k) g)).
    apply derivable_pt_lim_const. exact (derivable_pt_lim_mult (fun t => t - k) g t 1 l Hu Hg). }
  assert (H3 : derivable_pt_lim (fun t => c + (t - k) * d) t d).
  { pose proof (Hstep (fct_cte d) c 0 (derivable_pt_lim_const d t)) as H.
    eapply eq_rect; [exact H | unfold fct_cte; ring]. }
  pose proof (Hstep _ b _ H3) as H2. cbn beta in H2.
  pose proof (Hstep _ a _ H2) as H1. cbn beta in H1.
  eapply eq_rect; [exact H1 | ring].
Qed.
Lemma P0_deriv : forall i t, derivable_pt_lim (P0 i) t (P1 i t).
Proof. intros. unfold P0, P1. apply cubic_deriv. Qed.
Lemma P1_deriv : forall i t, derivable_pt_lim (P1 i) t (P2 i t).
Proof.
  intros. unfold P1, P2.
  pose proof (cubic_deriv (seg_b n y i) (2 * seg_c n y i) (3 * seg_d n y i) 0 (knot n i) t) as H.
  eapply deriv_ext; [|eapply eq_rect; [exact H|ring]].
  intros z. cbn beta. ring.
Qed.
Lemma P2_cont : forall i t, continuity_pt (P2 i) t.
Proof.
  intros. apply derivable_continuous_pt. exists (6 * seg_d n y i). unfold P2.
  pose proof (cubic_deriv (2 * seg_c n y i) (6 * seg_d n y i) 0 0 (knot n i) t) as H.
  eapply deriv_ext; [|eapply eq_rect; [exact H|ring]].
  intros z. cbn beta. ring.
Qed.

(* matching at inner knots *)
Lemma match0 : forall i, P0 i (knot n (S i)) = y (S i).
Proof.
  intros. unfold P0, seg_a, seg_b, seg_c, seg_d. rewrite knot_S, Nat.add_1_r. field. pose proof hh_pos; lra.
Qed.
Lemma P0_own : forall i, P0 i (knot n i) = y i.
Proof. intros. unfold P0, seg_a. ring. Qed.
Lemma match1 : forall i, (i < n - 2)%nat -> P1 i (knot n (S i)) = P1 (S i) (knot n (S i)).
Proof.
  intros i Hi. pose proof (tridiag i Hi) as T. unfold rhs0 in T.
  rewrite Nat.add_1_r in T. replace (i + 2)%nat with (S (S i)) in T by lia.
  pose proof hh_pos as Hh.
  unfold P1. rewrite (Rminus_diag_eq (knot n (S i)) (knot n (S i)) eq_refl).
  rewrite knot_S. replace (knot n i + hh n - knot n i) with (hh n) by ring.
  unfold seg_b, seg_c, seg_d. rewrite !Nat.add_1_r.
  assert (E : (y (S (S i)) - 2 * y (S i) + y i) / hh n =
     (hh n * M n y i + 4 * hh n * M n y (S i) + hh n * M n y (S (S i))) / 6).
  { rewrite T. field. lra. }
  apply Rminus_diag_uniq.
  transitivity ((hh n * M n y i + 4 * hh n * M n y (S i) + hh n * M n y (S (S i))) / 6
     - (y (S (S i)) - 2 * y (S i) + y i) / hh n). { field. lra. }
  rewrite E. ring.
Qed.
Lemma P2_own : forall i, P2 i (knot n i) = M n y i.
Proof. intros. unfold P2, seg_c. field. Qed.
Lemma match2 : forall i, P2 i (knot n (S i)) = M n y (S i).
Proof.
  intros. unfold P2, seg_c, seg_d. rewrite knot_S, Nat.add_1_r. field. pose proof hh_pos; lra.
Qed.

(* the segment search *)
Lemma seg_search_spec : forall t f i, knot n i <= t ->
  let s := seg_search n t f i i in
  (i <= s <= i + f)%nat /\ knot n s <= t /\ ((s < i + f)%nat -> t < knot n (S s)).
Proof.
  intros t f. induction f as [|f IH]; intros i Hi; cbn [seg_search].
  - cbn. repeat split; try lia; auto.
  - rewrite Nat.add_1_r. destruct (Rleb (knot n (S i)) t) eqn:E; rb.
    + specialize (IH (S i) E). cbn in IH. cbn. destruct IH as (A & B & C). repeat split; try lia; auto.
      intros. apply C. lia.
    + cbn. repeat split; try lia; auto.
Qed.
Lemma find_seg_spec : forall t, 0 <= t <= 1 ->
  let s := find_seg n t in
  (s <= n - 2)%nat /\ knot n s <= t /\ ((s < n - 2)%nat -> t < knot n (S s)).
Proof.
  intros t Ht. pose proof (seg_search_spec t (n - 2) 0 ltac:(rewrite knot_0; lra)) as H. cbn zeta in H.
  unfold find_seg. cbn zeta. rewrite Nat.min_l by lia. destruct H as (A & B & C).
  repeat split; try lia; auto.
Qed.
Lemma find_seg_unique : forall t s, 0 <= t <= 1 -> (s <= n - 2)%nat -> knot n s <= t ->
  ((s < n - 2)%nat -> t < knot n (S s)) -> find_seg n t = s.
Proof.
  intros t s Ht Hs H1 H2. destruct (find_seg_spec t Ht) as (A & B & C).
  destruct (Nat.lt_trichotomy (find_seg n t) s) as [L|[L|L]]; auto; exfalso.
  - assert (t < knot n (S (find_seg n t))) by (apply C; lia).
    pose proof (knot_le (S (find_seg n t)) s ltac:(lia)). lra.
  - assert (t < knot n (S s)) by (apply H2; lia).
    pose proof (knot_le (S s) (find_seg n t) ltac:(lia)). lra.
Qed.

Lemma eval_eq : forall t, 0 <= t <= 1 -> evaluate_spline n y t = P0 (find_seg n t) t.
Proof.
  intros t Ht. unfold evaluate_spline. rewrite (Rmax_left t 0), (Rmin_left t 1) by lra. reflexivity.
Qed.

Lemma knot_range : forall i, (i <= n - 1)%nat -> 0 <= knot n i <= 1.
Proof. intros i Hi. split; [apply knot_nonneg|]. rewrite <- knot_last. apply knot_le; auto. Qed.

Lemma spline_interp : forall i, (i < n)%nat -> evaluate_spline n y (knot n i) = y i.
Proof.
  intros i Hi. rewrite eval_eq by (apply knot_range; lia).
  destruct (Nat.eq_dec i (n - 1)) as [E|E].
  - rewrite (find_seg_unique (knot n i) (n - 2)); try apply knot_range; try lia.
    + replace i with (S (n - 2)) by lia. apply match0.
    + apply knot_le. lia.
  - rewrite (find_seg_unique (knot n i) i); try apply knot_range; try lia.
    + apply P0_own.
    + lra.
    + intros. apply knot_lt. lia.
Qed.

(* smoothness: the derivatives of the spline *)
Definition S1 (t : R) : R := P1 (find_seg n t) t.
Definition S2 (t : R) : R := P2 (find_seg n t) t.

(* locally the spline is one or two segments *)
Lemma local : forall t, 0 < t < 1 -> exists i e, 0 < e /\
   let j := find_seg n t in
   (i = j \/ (i < n - 2)%nat /\ j = S i /\ t = knot n j) /\
   forall z, Rabs (z - t) < e -> 0 <= z <= 1 /\ (z < t -> find_seg n z = i) /\ (t <= z -> find_seg n z = j).
Proof.
  intros t Ht. destruct (find_seg_spec t ltac:(lra)) as (A & B & C).
  assert (Hup : exists u, t < u /\ u <= 1 /\ forall z, t <= z < u -> find_seg n z = find_seg n t).
  { destruct (Nat.eq_dec (find_seg n t) (n - 2)) as [E|E].
    - exists 1. repeat split; try lra. intros z Hz. apply find_seg_unique; auto; try lra; try lia.
    - assert (t < knot n (S (find_seg n t))) by (apply C; lia).
      exists (knot n (S (find_seg n t))). repeat split; auto.
      { apply knot_range. lia. }
      intros z Hz. pose proof (knot_range (S (find_seg n t)) ltac:(lia)).
      apply find_seg_unique; auto; try lra. }
  destruct Hup as (u & U1 & U2 & U3).
  destruct (Rle_lt_or_eq_dec _ _ B) as [L|L].
  - exists (find_seg n t), (Rmin (t - knot n (find_seg n t)) (u - t)).
    split. { apply Rmin_glb_lt; lra. }
    split. { auto. }
    intros z Hz.
    assert (Rabs (z - t) < t - knot n (find_seg n t)) as Q1 by (eapply Rlt_le_trans; [exact Hz | apply Rmin_l]).
    assert (Rabs (z - t) < u - t) as Q2 by (eapply Rlt_le_trans; [exact Hz | apply Rmin_r]).
    apply Rabs_def2 in Q1. apply Rabs_def2 in Q2.
    pose proof (knot_nonneg (find_seg n t)).
    split; [lra|]. split; intros; [|apply U3; lra].
    apply find_seg_unique; auto; try lra. intros X. apply C in X. lra.
  - assert (Hj : exists i, find_seg n t = S i).
    { destruct (find_seg n t) as [|i]; [|eauto]. rewrite knot_0 in L. lra. }
    destruct Hj as (i & Hj). exists i, (Rmin (hh n) (u - t)). pose proof hh_pos.
    split. { apply Rmin_glb_lt; lra. }
    cbn zeta. split. { right. repeat split; auto; lia. }
    intros z Hz.
    assert (Rabs (z - t) < hh n) as Q1 by (eapply Rlt_le_trans; [exact Hz | apply Rmin_l]).
    assert (Rabs (z - t) < u - t) as Q2 by (eapply Rlt_le_trans; [exact Hz | apply Rmin_r]).
    apply Rabs_def2 in Q1. apply Rabs_def2 in Q2.
    rewrite Hj, knot_S in L. pose proof (knot_nonneg i).
    split; [lra|]. split; intros; [|apply U3; lra].
    apply find_seg_unique; try lra; try lia. intros _. rewrite knot_S. lra.
Qed.

Lemma spline_deriv1 : forall t, 0 < t < 1 -> derivable_pt_lim (evaluate_spline n y) t (S1 t).
Proof.
  intros t Ht. destruct (local t Ht) as (i & e & He & Hm & Hl). cbn zeta in *.
  assert (V0 : P0 i t = P0 (find_seg n t) t).
  { destruct Hm as [->|(Hi & E & T)]; auto. rewrite E. rewrite T, E, match0, P0_own. auto. }
  assert (V1 : P1 i t = P1 (find_seg n t) t).
  { destruct Hm as [->|(Hi & E & T)]; auto. rewrite E. rewrite T, E. apply match1; auto. }
  apply glue_deriv with (P0 i) (P0 (find_seg n t)) e; auto.
  - replace (S1 t) with (P1 i t) by (unfold S1; auto). apply P0_deriv.
  - unfold S1. apply P0_deriv.
  - rewrite eval_eq by lra. auto.
  - rewrite eval_eq by lra. auto.
  - intros z Hz. destruct (Hl z Hz) as (R1 & R2 & R3). split; intros Q.
    + rewrite eval_eq by lra. rewrite R2; auto.
    + rewrite eval_eq by lra. rewrite R3; auto.
Qed.

Lemma spline_deriv2 : forall t, 0 < t < 1 -> derivable_pt_lim S1 t (S2 t).
Proof.
  intros t Ht. destruct (local t Ht) as (i & e & He & Hm & Hl). cbn zeta in *.
  assert (V1 : P1 i t = P1 (find_seg n t) t).
  { destruct Hm as [->|(Hi & E & T)]; auto. rewrite E. rewrite T, E. apply match1; auto. }
  assert (V2 : P2 i t = P2 (find_seg n t) t).
  { destruct Hm as [->|(Hi & E & T)]; auto. rewrite E. rewrite T, E, match2, P2_own. auto. }
  apply glue_deriv with (P1 i) (P1 (find_seg n t)) e; auto.
  - replace (S2 t) with (P2 i t) by (unfold S2; auto). apply P1_deriv.
  - unfold S2. apply P1_deriv.
  - intros z Hz. destruct (Hl z Hz) as (R1 & R2 & R3). unfold S1. split; intros Q.
    + rewrite R2; auto.
    + rewrite R3; auto.
Qed.

Lemma spline_cont2 : forall t, 0 < t < 1 -> continuity_pt S2 t.
Proof.
  intros t Ht. destruct (local t Ht) as (i & e & He & Hm & Hl). cbn zeta in *.
  assert (V2 : P2 i t = P2 (find_seg n t) t).
  { destruct Hm as [->|(Hi & E & T)]; auto. rewrite E. rewrite T, E, match2, P2_own. auto. }
  apply glue_cont with (P2 i) (P2 (find_seg n t)) e; auto; try apply P2_cont.
  intros z Hz. destruct (Hl z Hz) as (R1 & R2 & R3). unfold S2. split; intros Q.
  - rewrite R2; auto.
  - rewrite R3; auto.
Qed.

(* one-sided limits of the second derivative at the ends *)
Lemma S2_at_0 : forall eps, 0 < eps -> exists d, 0 < d /\ forall t, 0 < t < d -> Rabs (S2 t) < eps.
Proof.
  intros eps Heps. destruct (P2_cont 0 0 eps Heps) as (d & Hd & H).
  exists (Rmin d (hh n)). split. { apply Rmin_glb_lt; auto. apply hh_pos. }
  intros t [T1 T2].
  assert (t < d) by (eapply Rlt_le_trans; [exact T2 | apply Rmin_l]).
  assert (t < hh n) by (eapply Rlt_le_trans; [exact T2 | apply Rmin_r]).
  assert (hh n <= 1). { pose proof (knot_range 1 ltac:(lia)) as K. rewrite knot_S, knot_0 in K. lra. }
  unfold S2. rewrite (find_seg_unique t 0); try lra; try lia.
  - assert (Rabs (t - 0) < d) by (rewrite Rminus_0_r, Rabs_right; lra).
    specialize (H t). cbn in H. unfold R_dist in H.
    assert (E : P2 0 0 = 0) by (rewrite <- knot_0 at 1; rewrite P2_own; apply M_0).
    rewrite E in H. rewrite (Rminus_0_r (P2 0 t)) in H.
    apply H. split; auto. split; [exact I | lra].
  - rewrite knot_0. lra.
  - rewrite knot_S, knot_0. lra.
Qed.
Lemma S2_at_1 : forall eps, 0 < eps -> exists d, 0 < d /\ forall t, 1 - d < t < 1 -> Rabs (S2 t) < eps.
Proof.
  intros eps Heps. destruct (P2_cont (n - 2) 1 eps Heps) as (d & Hd & H).
  assert (L : 1 = knot n (n - 2) + hh n) by (rewrite <- knot_S, <- knot_last; f_equal; lia).
  exists (Rmin d (hh n)). split. { apply Rmin_glb_lt; auto. apply hh_pos. }
  intros t [T1 T2].
  assert (Rmin d (hh n) <= d) by apply Rmin_l. assert (Rmin d (hh n) <= hh n) by apply Rmin_r.
  pose proof (knot_nonneg (n - 2)).
  unfold S2. rewrite (find_seg_unique t (n - 2)); try lra; try lia.
  specialize (H t). cbn in H. unfold R_dist in H.
  assert (Rabs (t - 1) < d) by (apply Rabs_def1; lra).
  assert (E : P2 (n - 2) 1 = 0).
  { rewrite <- knot_last. replace (n - 1)%nat with (S (n - 2)) by lia. rewrite match2.
    replace (S (n - 2)) with (n - 1)%nat by lia. apply M_last. }
  rewrite E, (Rminus_0_r (P2 (n - 2) t)) in H. apply H. split; auto. split; [exact I | lra].
Qed.
End S.
