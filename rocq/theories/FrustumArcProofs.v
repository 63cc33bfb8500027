From Verif Require Import Vec3 FrustumModel FrustumSpec.

(** Intersection of interval lists *)
Lemma intersect_cons a1 a2 ra b1 b2 rb :
  intersect ((a1, a2) :: ra) ((b1, b2) :: rb) =
  (if Rltb (Rmax a1 b1) (Rmin a2 b2) then [(Rmax a1 b1, Rmin a2 b2)] else []) ++
  (if Rltb a2 b2 then intersect ra ((b1, b2) :: rb) else intersect ((a1, a2) :: ra) rb).
Proof. reflexivity. Qed.
Lemma intersect_nil_r a : intersect a [] = [].
Proof. destruct a as [|[a1 a2] ra]; reflexivity. Qed.

(* every result interval is inside an interval of each side *)
Lemma intersect_sub : forall a b c d, In (c, d) (intersect a b) -> c < d /\
  (exists a1 a2, In (a1, a2) a /\ a1 <= c /\ d <= a2) /\ (exists b1 b2, In (b1, b2) b /\ b1 <= c /\ d <= b2).
Proof.
  induction a as [|[a1 a2] ra IHa]; intros b c d H; [destruct H|].
  induction b as [|[b1 b2] rb' IHb]; [destruct H|].
  rewrite intersect_cons in H. apply in_app_or in H. destruct H as [H|H].
  - destruct (Rltb (Rmax a1 b1) (Rmin a2 b2)) eqn:E; [|destruct H]. rb. destruct H as [H|[]]. injection H as <- <-.
    split; [exact E|]. split; [exists a1, a2|exists b1, b2]; (split; [left; reflexivity|]); split;
      (apply Rmax_l || apply Rmax_r || apply Rmin_l || apply Rmin_r).
  - destruct (Rltb a2 b2).
    + destruct (IHa _ _ _ H) as (H1 & (x & y & Hx & Hxy) & H3). split; [exact H1|]. split; [exists x, y; split; [right; exact Hx|exact Hxy]|exact H3].
    + destruct (IHb H) as (H1 & H2 & (x & y & Hx & Hxy)). split; [exact H1|]. split; [exact H2|]. exists x, y. split; [right; exact Hx|exact Hxy].
Qed.

Lemma intersect_covers : forall a b, sorted_disjoint a -> sorted_disjoint b ->
  forall t, covers_open a t -> covers_open b t -> covers_open (intersect a b) t.
Proof.
  induction a as [|[a1 a2] ra IHa]; intros b Sa Sb t (x & y & Hxy & Ht) (x' & y' & Hxy' & Ht'); [destruct Hxy|].
  induction b as [|[b1 b2] rb' IHb]; [destruct Hxy'|].
  rewrite intersect_cons.
  assert (HL : forall l1 l2, covers_open l1 t \/ covers_open l2 t -> covers_open (l1 ++ l2) t).
  { intros l1 l2 [(p & q & H & G)|(p & q & H & G)]; exists p, q; (split; [apply in_or_app; auto|exact G]). }
  apply HL.
  cbn [sorted_disjoint] in Sa, Sb. destruct Sa as (A1 & A2 & A3). destruct Sb as (B1 & B2 & B3).
  destruct Hxy as [E|Hxy]; [injection E as <- <-|]; destruct Hxy' as [E|Hxy']; [injection E as <- <-| |injection E as <- <-|].
  - left. assert (L : Rltb (Rmax a1 b1) (Rmin a2 b2) = true).
    { apply Rltb_true. apply Rlt_trans with t; [apply Rmax_lub_lt; lra|apply Rmin_glb_lt; lra]. }
    rewrite L. eexists _, _. split; [left; reflexivity|]. split; [apply Rmax_lub_lt; lra|apply Rmin_glb_lt; lra].
  - (* t in a's head, in b's tail *) right. specialize (B2 _ _ Hxy').
    assert (L : Rltb a2 b2 = false) by (apply Rltb_false; lra). rewrite L. apply IHb; auto.
  - right. specialize (A2 _ _ Hxy). assert (L : Rltb a2 b2 = true) by (apply Rltb_true; lra). rewrite L.
    apply IHa; auto; [|exists x, y; auto|exists b1, b2; split; [left; reflexivity|exact Ht']]. cbn [sorted_disjoint]. auto.
  - right. destruct (Rltb a2 b2) eqn:L; rb.
    + apply IHa; auto; [|exists x, y; auto|exists x', y'; split; [right; exact Hxy'|exact Ht']]. cbn [sorted_disjoint]. auto.
    + apply IHb; auto.
Qed.

Lemma intersect_lower : forall a b m, (forall c d, In (c, d) a -> m <= c) \/ (forall c d, In (c, d) b -> m <= c) ->
  forall c d, In (c, d) (intersect a b) -> m <= c.
Proof.
  intros a b m H c d Hin. destruct (intersect_sub _ _ _ _ Hin) as (_ & (x & y & Hx & G1 & _) & (x' & y' & Hx' & G2 & _)).
  destruct H as [H|H]; [specialize (H _ _ Hx)|specialize (H _ _ Hx')]; lra.
Qed.

Lemma intersect_sorted : forall a b, sorted_disjoint a -> sorted_disjoint b -> sorted_disjoint (intersect a b).
Proof.
  induction a as [|[a1 a2] ra IHa]; intros b Sa Sb; [exact I|].
  induction b as [|[b1 b2] rb' IHb]; [exact I|]. rewrite intersect_cons.
  cbn [sorted_disjoint] in Sa. destruct Sa as (A1 & A2 & A3). pose proof Sb as Sb0. cbn [sorted_disjoint] in Sb. destruct Sb as (B1 & B2 & B3).
  assert (R : sorted_disjoint (if Rltb a2 b2 then intersect ra ((b1, b2) :: rb') else intersect ((a1, a2) :: ra) rb')).
  { destruct (Rltb a2 b2); [apply IHa; auto|apply IHb; auto]. }
  destruct (Rltb (Rmax a1 b1) (Rmin a2 b2)) eqn:E; cbn [app]; [|exact R]. rb.
  cbn [sorted_disjoint]. split; [exact E|]. split; [|exact R].
  destruct (Rltb a2 b2) eqn:L; rb.
  - rewrite Rmin_left by lra. apply intersect_lower. left. exact A2.
  - rewrite Rmin_right by lra. apply intersect_lower. right. exact B2.
Qed.

(** Arc intervals *)
Definition midpos (f : R -> R) (b0 b1 : R) : Prop := 0 <= f ((b0 + b1) / 2).
(* consecutive pairs *)
Fixpoint pairs (l : list R) : list (R * R) :=
  match l with a :: ((b :: _) as r) => (a, b) :: pairs r | _ => [] end.

Lemma arc_loop_cons f b0 b1 r acc : arc_loop f (b0 :: b1 :: r) acc =
  if Rleb 0 (f ((b0 + b1) / 2)) then
    match acc with
    | (s, e) :: acc' => if Rltb (Rabs (e - b0)) eps then arc_loop f (b1 :: r) ((s, b1) :: acc') else arc_loop f (b1 :: r) ((b0, b1) :: acc)
    | [] => arc_loop f (b1 :: r) [(b0, b1)]
    end
  else arc_loop f (b1 :: r) acc.
Proof. reflexivity. Qed.

Lemma eps_pos : 0 < eps. Proof. unfold eps. lra. Qed.

(* the accumulated intervals end at processed boundaries *)
Definition acc_ok (acc : list interval) (b0 : R) : Prop :=
  (forall s e, In (s, e) acc -> s < e /\ e <= b0) /\
  match acc with (s, e) :: _ => e = b0 \/ e + eps <= b0 | [] => True end.

(* coverage facts of the loop, closed and open *)
Lemma arc_loop_cover f : forall bs acc b0, separated (b0 :: bs) -> acc_ok acc b0 ->
  forall t,
  (covers_open acc t \/ (exists x y, In (x, y) (pairs (b0 :: bs)) /\ midpos f x y /\ x < t < y)) -> covers_open (arc_loop f (b0 :: bs) acc) t.
Proof.
  induction bs as [|b1 r IH]; intros acc b0 Hsep Hacc t H.
  - cbn [arc_loop]. destruct H as [(s & e & Hin & Ht)|(x & y & [] & _)]. exists s, e. split; [apply in_rev in Hin; exact Hin|exact Ht].
  - destruct Hsep as [Hgap Hsep']. rewrite arc_loop_cons. destruct Hacc as [Hall Hhd]. pose proof eps_pos as EP.
    destruct (Rleb 0 (f ((b0 + b1) / 2))) eqn:Em; rb.
    + assert (HP : covers_open acc t \/ (b0 < t < b1) \/ (exists x y, In (x, y) (pairs (b1 :: r)) /\ midpos f x y /\ x < t < y)).
      { destruct H as [H|(x & y & [E|Hin] & Hm & Ht)]; [tauto|injection E as <- <-; tauto|right; right; exists x, y; auto]. }
      clear H. destruct acc as [|[s e] acc'].
      * apply IH; auto.
        { split; [|left; reflexivity]. intros s e [E|[]]. injection E as <- <-. lra. }
        destruct HP as [(s & e & [] & _)|[Ht|HP]]; [left; exists b0, b1; split; [left; reflexivity|exact Ht]|right; exact HP].
      * destruct (Rltb (Rabs (e - b0)) eps) eqn:Er; rb.
        { assert (e = b0). { destruct Hhd as [E|E]; [exact E|]. rewrite Rabs_left in Er; lra. } subst e.
          apply IH; auto.
          - split; [|left; reflexivity]. intros s' e' [E|Hin]; [injection E as <- <-; specialize (Hall s b0 (or_introl eq_refl)); lra|].
            specialize (Hall s' e' (or_intror Hin)). lra.
          - pose proof (Hall s b0 (or_introl eq_refl)).
            destruct HP as [(s' & e' & [E|Hin] & Ht)|[Ht|HP]]; [left|left|left|right; exact HP].
            + injection E as <- <-. exists s, b1. split; [left; reflexivity|lra].
            + exists s', e'. split; [right; exact Hin|exact Ht].
            + exists s, b1. split; [left; reflexivity|lra]. }
        { apply IH; auto.
          - split; [|left; reflexivity]. intros s' e' [E|Hin]; [injection E as <- <-; lra|]. specialize (Hall s' e' Hin). lra.
          - destruct HP as [(s' & e' & Hin & Ht)|[Ht|HP]]; [left|left|right; exact HP].
            + exists s', e'. split; [right; exact Hin|exact Ht].
            + exists b0, b1. split; [left; reflexivity|exact Ht]. }
    + apply IH; auto.
      * split; [intros s e Hin; specialize (Hall s e Hin); lra|]. destruct acc as [|[s e] acc']; [exact I|]. specialize (Hall s e (or_introl eq_refl)). right. lra.
      * destruct H as [H|(x & y & [E|Hin] & Hm & Ht)]; [left; exact H|injection E as <- <-; unfold midpos in Hm; lra|right; exists x, y; auto].
Qed.

Lemma arc_loop_sound f : forall bs acc b0, separated (b0 :: bs) -> acc_ok acc b0 ->
  forall t, covers (arc_loop f (b0 :: bs) acc) t ->
  covers acc t \/ exists x y, In (x, y) (pairs (b0 :: bs)) /\ midpos f x y /\ x <= t <= y.
Proof.
  induction bs as [|b1 r IH]; intros acc b0 Hsep Hacc t H.
  - cbn [arc_loop] in H. left. destruct H as (s & e & Hin & Ht). apply in_rev in Hin. exists s, e. auto.
  - destruct Hsep as [Hgap Hsep']. rewrite arc_loop_cons in H. destruct Hacc as [Hall Hhd]. pose proof eps_pos as EP.
    assert (Lift : (exists x y, In (x, y) (pairs (b1 :: r)) /\ midpos f x y /\ x <= t <= y) ->
       exists x y, In (x, y) (pairs (b0 :: b1 :: r)) /\ midpos f x y /\ x <= t <= y).
    { intros (x & y & Hin & G). exists x, y. split; [right; exact Hin|exact G]. }
    destruct (Rleb 0 (f ((b0 + b1) / 2))) eqn:Em; rb.
    + assert (Here : b0 <= t <= b1 -> exists x y, In (x, y) (pairs (b0 :: b1 :: r)) /\ midpos f x y /\ x <= t <= y).
      { intros Ht. exists b0, b1. split; [left; reflexivity|]. split; [exact Em|exact Ht]. }
      destruct acc as [|[s e] acc'].
      * destruct (IH [(b0, b1)] b1 Hsep') with (t := t) as [(s & e & [E|[]] & Ht)|G]; auto.
        { split; [|left; reflexivity]. intros s e [E|[]]. injection E as <- <-. lra. }
        injection E as <- <-. auto.
      * destruct (Rltb (Rabs (e - b0)) eps) eqn:Er; rb.
        { assert (e = b0). { destruct Hhd as [E|E]; [exact E|]. rewrite Rabs_left in Er; lra. } subst e.
          pose proof (Hall s b0 (or_introl eq_refl)).
          destruct (IH ((s, b1) :: acc') b1 Hsep') with (t := t) as [(s' & e' & [E|Hin] & Ht)|G]; auto.
          - split; [|left; reflexivity]. intros s' e' [E|Hin]; [injection E as <- <-; lra|]. specialize (Hall s' e' (or_intror Hin)). lra.
          - injection E as <- <-. destruct (Rle_dec t b0) as [L|L]; [left; exists s, b0; split; [left; reflexivity|lra]|right; apply Here; lra].
          - left. exists s', e'. split; [right; exact Hin|exact Ht]. }
        { destruct (IH ((b0, b1) :: (s, e) :: acc') b1 Hsep') with (t := t) as [(s' & e' & [E|Hin] & Ht)|G]; auto.
          - split; [|left; reflexivity]. intros s' e' [E|Hin]; [injection E as <- <-; lra|]. specialize (Hall s' e' Hin). lra.
          - injection E as <- <-. auto.
          - left. exists s', e'. auto. }
    + destruct (IH acc b1 Hsep') with (t := t) as [G|G]; auto.
      split; [intros s e Hin; specialize (Hall s e Hin); lra|]. destruct acc as [|[s e] acc']; [exact I|]. specialize (Hall s e (or_introl eq_refl)). right. lra.
Qed.

(* the result is sorted and disjoint *)
Lemma sorted_disjoint_app l1 l2 : sorted_disjoint l1 -> sorted_disjoint l2 ->
  (forall a b c d, In (a, b) l1 -> In (c, d) l2 -> b <= c) -> sorted_disjoint (l1 ++ l2).
Proof.
  induction l1 as [|[a b] l1 IH]; intros S1 S2 H; cbn [app]; [exact S2|].
  destruct S1 as (A1 & A2 & A3). split; [exact A1|]. split.
  - intros c d Hin. apply in_app_or in Hin. destruct Hin as [Hin|Hin]; [apply (A2 _ _ Hin)|apply (H a b c d); [left; reflexivity|exact Hin]].
  - apply IH; auto. intros x y z w H1 H2. apply (H x y z w); [right; exact H1|exact H2].
Qed.

Lemma arc_loop_sorted f : forall bs acc b0, separated (b0 :: bs) -> acc_ok acc b0 -> sorted_disjoint (rev acc) ->
  sorted_disjoint (arc_loop f (b0 :: bs) acc).
Proof.
  induction bs as [|b1 r IH]; intros acc b0 Hsep Hacc HS; [exact HS|].
  destruct Hsep as [Hgap Hsep']. rewrite arc_loop_cons. destruct Hacc as [Hall Hhd]. pose proof eps_pos as EP.
  destruct (Rleb 0 (f ((b0 + b1) / 2))) eqn:Em; rb.
  - destruct acc as [|[s e] acc'].
    + apply IH; auto.
      * split; [|left; reflexivity]. intros s e [E|[]]. injection E as <- <-. lra.
      * cbn. split; [lra|]. split; [intros ? ? []|exact I].
    + destruct (Rltb (Rabs (e - b0)) eps) eqn:Er; rb.
      * assert (e = b0). { destruct Hhd as [E|E]; [exact E|]. rewrite Rabs_left in Er; lra. } subst e.
        pose proof (Hall s b0 (or_introl eq_refl)).
        apply IH; auto.
        { split; [|left; reflexivity]. intros s' e' [E|Hin]; [injection E as <- <-; lra|]. specialize (Hall s' e' (or_intror Hin)). lra. }
        cbn [rev] in *. 
        assert (G : forall l, sorted_disjoint (l ++ [(s, b0)]) -> sorted_disjoint (l ++ [(s, b1)])).
        { induction l as [|[x y] l IHl]; cbn [app sorted_disjoint].
          - intros _. split; [lra|]. split; [intros ? ? []|exact I].
          - intros (G1 & G2 & G3). split; [exact G1|]. split; [|auto]. intros c d Hin. apply in_app_or in Hin. destruct Hin as [Hin|[E|[]]].
            + apply (G2 c d). apply in_or_app. auto.
            + injection E as <- <-. apply (G2 s b0). apply in_or_app. right; left; reflexivity. }
        apply G, HS.
      * apply IH; auto.
        { split; [|left; reflexivity]. intros s' e' [E|Hin]; [injection E as <- <-; lra|]. specialize (Hall s' e' Hin). lra. }
        cbn [rev]. change (rev acc' ++ [(s, e)]) with (rev ((s, e) :: acc')).
        apply sorted_disjoint_app; [exact HS|cbn; split; [lra|split; [intros ? ? []|exact I]]|].
        intros a b c d H1 [E|[]]. injection E as <- <-. apply in_rev in H1. specialize (Hall a b H1). lra.
  - apply IH; auto.
    split; [intros s e Hin; specialize (Hall s e Hin); lra|]. destruct acc as [|[s e] acc']; [exact I|]. specialize (Hall s e (or_introl eq_refl)). right. lra.
Qed.

(** boundaries *)
Lemma boundaries_exact cr : (forall t, In t cr -> eps < t < 1 - eps) -> boundaries cr = 0 :: cr ++ [1].
Proof.
  intros H. unfold boundaries. f_equal. f_equal. induction cr as [|t cr IH]; [reflexivity|]. cbn [filter].
  pose proof (H t (or_introl eq_refl)) as Ht.
  rewrite (proj2 (Rltb_true eps t)) by lra. rewrite (proj2 (Rltb_true t (1 - eps))) by lra. cbn [andb].
  rewrite IH by (intros; apply H; right; assumption). reflexivity.
Qed.

Lemma separated_boundaries cr : (forall t, In t cr -> eps < t < 1 - eps) -> separated cr -> separated (0 :: cr ++ [1]).
Proof.
  intros H Hs. assert (E1 : eps < 1) by (unfold eps; lra).
  assert (G : forall a l, separated (a :: l) -> (forall t, In t (a :: l) -> t + eps <= 1) -> separated (a :: l ++ [1])).
  { clear. intros a l; revert a. induction l as [|b l IH]; intros a Hs Hb; cbn [app separated].
    - split; [|exact I]. apply Hb. left; reflexivity.
    - destruct Hs as [H1 H2]. split; [exact H1|]. apply IH; [exact H2|]. intros t Ht. apply Hb. right; exact Ht. }
  apply G.
  - destruct cr as [|t cr]; cbn [separated]; [exact I|]. split; [specialize (H t (or_introl eq_refl)); lra|exact Hs].
  - intros t [<-|Ht]; [lra|]. specialize (H t Ht). lra.
Qed.

Lemma pairs_adjacent : forall l x y, separated l -> In (x, y) (pairs l) ->
  x < y /\ In x l /\ In y l /\ forall z, In z l -> z <= x \/ y <= z.
Proof.
  pose proof eps_pos as EP.
  induction l as [|a l IH]; intros x y Hs Hin; [destruct Hin|]. destruct l as [|b l]; [destruct Hin|].
  cbn [pairs] in Hin. destruct Hs as [H1 H2].
  assert (LB : forall c l, separated (c :: l) -> forall z, In z (c :: l) -> c <= z).
  { clear -EP. intros c l; revert c. induction l as [|d l IH]; intros c Hs z [<-|Hz]; try lra; [destruct Hz|].
    destruct Hs as [G1 G2]. specialize (IH d G2 z Hz). lra. }
  destruct Hin as [E|Hin].
  - injection E as <- <-. split; [lra|]. split; [left; reflexivity|]. split; [right; left; reflexivity|].
    intros z [<-|Hz]; [left; lra|]. right. apply (LB b l H2 z Hz).
  - destruct (IH x y H2 Hin) as (G1 & G2 & G3 & G4). split; [exact G1|]. split; [right; exact G2|]. split; [right; exact G3|].
    intros z [<-|Hz]; [|auto]. left. pose proof (LB b l H2 x G2). lra.
Qed.

(* in the exact case no root lies strictly between adjacent boundaries *)
Lemma IVT_pos f x y : continuity f -> x < y -> f x < 0 -> 0 < f y -> exists z, x < z < y /\ f z = 0.
Proof.
  intros Hc Hxy Hx Hy. destruct (IVT f x y Hc Hxy Hx Hy) as (z & Hz & Ez). exists z. split; [|exact Ez].
  split; [destruct (Req_dec z x) as [->|]; lra|destruct (Req_dec z y) as [->|]; lra].
Qed.
Lemma IVT_any f x y : continuity f -> f x < 0 -> 0 < f y -> exists z, Rmin x y < z < Rmax x y /\ f z = 0.
Proof.
  intros Hc Hx Hy. destruct (Rtotal_order x y) as [L|[->|L]]; [|lra|].
  - rewrite Rmin_left, Rmax_right by lra. apply IVT_pos; auto.
  - rewrite Rmin_right, Rmax_left by lra.
    destruct (IVT_pos (fun t => - f t) y x) as (z & Hz & Ez); [apply continuity_opp; exact Hc|lra|lra|lra|]. exists z. split; [exact Hz|lra].
Qed.

Section Exact.
Variables (f : R -> R) (cr : list R).
Hypothesis Hf : continuity f.
Hypothesis Hroots : forall t, 0 < t < 1 -> (f t = 0 <-> In t cr).
Hypothesis Hin : forall t, In t cr -> eps < t < 1 - eps.
Hypothesis Hsep : separated cr.

Lemma Hb : separated (0 :: cr ++ [1]). Proof. apply separated_boundaries; auto. Qed.

Lemma no_root_between x y z : In (x, y) (pairs (0 :: cr ++ [1])) -> x < z < y -> f z <> 0.
Proof.
  intros Hp Hz E. pose proof eps_pos.
  destruct (pairs_adjacent _ x y Hb Hp) as (G1 & G2 & G3 & G4).
  assert (B : forall w, In w (0 :: cr ++ [1]) -> 0 <= w <= 1).
  { intros w [<-|Hw]; [lra|]. apply in_app_or in Hw. destruct Hw as [Hw|[<-|[]]]; [specialize (Hin w Hw)|]; lra. }
  pose proof (B x G2). pose proof (B y G3).
  assert (In z cr) by (apply Hroots; [lra|exact E]).
  destruct (G4 z); [right; apply in_or_app; left; assumption|lra|lra].
Qed.

Lemma seg_sign x y t : In (x, y) (pairs (0 :: cr ++ [1])) -> x <= t <= y ->
  (0 < f t -> midpos f x y) /\ (midpos f x y -> 0 <= f t).
Proof.
  intros Hp Ht. destruct (pairs_adjacent _ x y Hb Hp) as (G1 & _).
  set (m := (x + y) / 2). assert (Hm : x < m < y) by (unfold m; lra).
  unfold midpos. fold m. pose proof (no_root_between x y m Hp Hm) as Nm.
  split.
  - intros Hpos. destruct (Rle_dec 0 (f m)) as [L|L]; [exact L|]. exfalso.
    destruct (IVT_any f m t Hf ltac:(lra) Hpos) as (z & Hz & Ez).
    apply (no_root_between x y z Hp); [|exact Ez]. revert Hz. unfold Rmin, Rmax. destruct (Rle_dec m t); lra.
  - intros Hmid. destruct (Rle_dec 0 (f t)) as [L|L]; [exact L|]. exfalso.
    assert (Pm : 0 < f m) by (destruct Hmid as [Hmid|Hmid]; [exact Hmid|congruence]).
    destruct (IVT_any f t m Hf ltac:(lra) Pm) as (z & Hz & Ez).
    apply (no_root_between x y z Hp); [|exact Ez]. revert Hz. unfold Rmin, Rmax. destruct (Rle_dec t m); lra.
Qed.

Lemma in_some_pair t : 0 < t < 1 -> f t <> 0 -> exists x y, In (x, y) (pairs (0 :: cr ++ [1])) /\ x < t < y.
Proof.
  intros Ht Hn.
  assert (Hnb : ~ In t (cr ++ [1])).
  { intros Hi. apply in_app_or in Hi. destruct Hi as [Hi|[E|[]]]; [apply Hn, Hroots; auto|lra]. }
  assert (G : forall l a, a < t -> (exists z, In z l /\ t < z) -> ~ In t l -> exists x y, In (x, y) (pairs (a :: l)) /\ x < t < y).
  { clear. induction l as [|b l IH]; intros a Ha (z & Hz & Lz) Hn; [destruct Hz|].
    destruct (Rtotal_order b t) as [L|[E|L]].
    - destruct (IH b L) as (x & y & H1 & H2).
      + exists z. destruct Hz as [->|Hz]; [lra|auto].
      + intros Hi; apply Hn; right; exact Hi.
      + exists x, y. split; [right; exact H1|exact H2].
    - exfalso. apply Hn. left; exact E.
    - exists a, b. split; [left; reflexivity|lra]. }
  apply G; [lra|exists 1; split; [apply in_or_app; right; left; reflexivity|lra]|exact Hnb].
Qed.

Lemma arc_complete t : 0 < t < 1 -> 0 < f t -> covers_open (arc_intervals f cr) t.
Proof.
  intros Ht Hpos. unfold arc_intervals. rewrite boundaries_exact by exact Hin.
  apply arc_loop_cover; [apply Hb|split; [intros ? ? []|exact I]|]. right.
  destruct (in_some_pair t Ht ltac:(lra)) as (x & y & Hp & Hxy). exists x, y. split; [exact Hp|]. split; [|exact Hxy].
  apply (seg_sign x y t Hp); [lra|exact Hpos].
Qed.
Lemma arc_sound t : covers (arc_intervals f cr) t -> 0 <= f t /\ 0 <= t <= 1.
Proof.
  unfold arc_intervals. rewrite boundaries_exact by exact Hin. intros H.
  destruct (arc_loop_sound f (cr ++ [1]) [] 0 Hb) with (t := t) as [(s & e & [] & _)|(x & y & Hp & Hm & Ht)];
    [split; [intros ? ? []|exact I]|exact H|].
  split; [apply (seg_sign x y t Hp Ht), Hm|].
  destruct (pairs_adjacent _ x y Hb Hp) as (_ & G2 & G3 & _). pose proof eps_pos.
  assert (B : forall w, In w (0 :: cr ++ [1]) -> 0 <= w <= 1).
  { intros w [<-|Hw]; [lra|]. apply in_app_or in Hw. destruct Hw as [Hw|[<-|[]]]; [specialize (Hin w Hw)|]; lra. }
  pose proof (B x G2). pose proof (B y G3). lra.
Qed.
Lemma arc_sorted : sorted_disjoint (arc_intervals f cr).
Proof.
  unfold arc_intervals. rewrite boundaries_exact by exact Hin.
  apply arc_loop_sorted; [apply Hb|split; [intros ? ? []|exact I]|exact I].
Qed.
End Exact.

Lemma arc_zero f : (forall t, 0 <= t <= 1 -> f t = 0) -> arc_intervals f [] = [(0, 1)].
Proof.
  intros H. unfold arc_intervals, boundaries. cbn [filter app]. rewrite arc_loop_cons.
  rewrite H by lra. rewrite (proj2 (Rleb_true 0 0)) by lra. reflexivity.
Qed.

Lemma arc_all f cr : exact_crossings f cr ->
  sorted_disjoint (arc_intervals f cr) /\
  (forall t, covers (arc_intervals f cr) t -> 0 <= f t /\ 0 <= t <= 1) /\
  (forall t, 0 < t < 1 -> 0 < f t -> covers_open (arc_intervals f cr) t).
Proof.
  intros [Hc [(-> & H)|(H1 & H2 & H3)]].
  - rewrite arc_zero by exact H. split; [cbn; split; [lra|split; [intros ? ? []|exact I]]|]. split.
    + intros t (a & b & [E|[]] & Ht). injection E as <- <-. rewrite H by exact Ht. lra.
    + intros t Ht Hp. rewrite H in Hp by lra. lra.
  - split; [apply arc_sorted; auto|]. split; [intros t; apply arc_sound; auto|intros t; apply arc_complete; auto].
Qed.

Lemma clip_arc_loop_spec : forall planes res, (forall f cr, In (f, cr) planes -> exact_crossings f cr) ->
  sorted_disjoint res ->
  sorted_disjoint (clip_arc_loop planes res) /\
  (forall t, covers (clip_arc_loop planes res) t -> covers res t /\ forall f cr, In (f, cr) planes -> 0 <= f t) /\
  (forall t, 0 < t < 1 -> covers_open res t -> (forall f cr, In (f, cr) planes -> 0 < f t) -> covers_open (clip_arc_loop planes res) t).
Proof.
  induction planes as [|[f cr] r IH]; intros res Hex HS; cbn [clip_arc_loop].
  - split; [exact HS|]. split; [intros t H; split; [exact H|intros ? ? []]|auto].
  - destruct (arc_all f cr (Hex f cr (or_introl eq_refl))) as (A1 & A2 & A3).
    pose proof (intersect_sorted res _ HS A1) as S'.
    set (res' := intersect res (arc_intervals f cr)) in *.
    destruct (IH res' ltac:(intros; apply Hex; right; assumption) S') as (B1 & B2 & B3).
    assert (SubL : forall t, covers res' t -> covers res t /\ 0 <= f t).
    { intros t (a & b & Hin & Ht). destruct (intersect_sub _ _ _ _ Hin) as (_ & (x & y & Hx & G) & (x' & y' & Hx' & G')).
      split; [exists x, y; split; [exact Hx|lra]|]. 
      assert (Cv : covers (arc_intervals f cr) t) by (exists x', y'; split; [exact Hx'|lra]).
      exact (proj1 (A2 t Cv)). }
    assert (Gsound : forall t, covers (clip_arc_loop r res') t -> covers res t /\ forall g c, In (g, c) ((f, cr) :: r) -> 0 <= g t).
    { intros t Ht. destruct (B2 t Ht) as (C1 & C2). destruct (SubL t C1) as (C3 & C4). split; [exact C3|].
      intros g c [E|Hg]; [injection E as <- <-; exact C4|apply (C2 g c Hg)]. }
    assert (Gcomp : forall t, 0 < t < 1 -> covers_open res t -> (forall g c, In (g, c) ((f, cr) :: r) -> 0 < g t) -> covers_open res' t).
    { intros t Ht Hc Hp. apply intersect_covers; auto. apply A3; [exact Ht|]. apply (Hp f cr). left; reflexivity. }
    destruct res' as [|i is] eqn:Er.
    + split; [exact I|]. split; [intros t (a & b & [] & _)|]. intros t Ht Hc Hp.
      destruct (Gcomp t Ht Hc Hp) as (a & b & [] & _).
    + split; [exact B1|]. split; [exact Gsound|]. intros t Ht Hc Hp. apply B3; auto. intros g c Hg. apply (Hp g c). right; exact Hg.
Qed.
