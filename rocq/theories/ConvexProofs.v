(* Plane-free theory of convex vertex cycles, used for the coverage theorem of polygon clipping. *)
From Verif Require Import Vec3.

Definition lerp (a b : vec3) (t : R) : vec3 := vadd a (vscale t (vsub b a)).
Definition on_seg (x a b : vec3) : Prop := exists t, 0 <= t <= 1 /\ x = lerp a b t.
Definition meets (a c b d : vec3) : Prop := exists x, on_seg x a c /\ on_seg x b d.

Ltac veq := apply v3_eq; cbn; try ring; try field; try lra.

Lemma on_seg_l a b : on_seg a a b. Proof. exists 0. split; [lra|veq]. Qed.
Lemma on_seg_r a b : on_seg b a b. Proof. exists 1. split; [lra|veq]. Qed.
Lemma on_seg_sym x a b : on_seg x a b -> on_seg x b a.
Proof. intros (t & Ht & ->). exists (1 - t). split; [lra|veq]. Qed.
Lemma meets_comm a c b d : meets a c b d -> meets b d a c.
Proof. intros (x & H1 & H2). exists x; auto. Qed.
Lemma meets_flip1 a c b d : meets a c b d -> meets c a b d.
Proof. intros (x & H1 & H2). exists x; auto using on_seg_sym. Qed.
Lemma meets_flip2 a c b d : meets a c b d -> meets a c d b.
Proof. intros (x & H1 & H2). exists x; auto using on_seg_sym. Qed.
Lemma meets_shared1 a c b : meets a c a b. Proof. exists a. auto using on_seg_l. Qed.

(* cevian: if yA and yB both meet the segment xz then so does y e for every e between A and B *)
Lemma cevian A B e y x z : meets A y x z -> meets B y x z -> on_seg e A B -> meets e y x z.
Proof.
  intros (u & (s & Hs & Hu) & (p & Hp & Hux)) (v & (t & Ht & Hv) & (q & Hq & Hvx)) (l & Hl & He).
  (* u = A + s (y - A), v = B + t (y - B); if s = 1 or t = 1 then y is on xz *)
  destruct (Req_dec s 1) as [->|Hs1].
  { exists y. split; [apply on_seg_r|]. exists p. split; [exact Hp|]. rewrite <- Hux, Hu. veq. }
  destruct (Req_dec t 1) as [->|Ht1].
  { exists y. split; [apply on_seg_r|]. exists q. split; [exact Hq|]. rewrite <- Hvx, Hv. veq. }
  set (s' := 1 - s). set (t' := 1 - t).
  assert (Hs' : 0 < s' <= 1) by (unfold s'; lra). assert (Ht' : 0 < t' <= 1) by (unfold t'; lra).
  set (D := l * s' + (1 - l) * t'). assert (HD : 0 < D) by (unfold D; nra).
  set (r := s' * t' / D). set (m := l * s' / D).
  assert (Hm : 0 <= m <= 1).
  { unfold m. split; [apply Rmult_le_pos; [nra|left; apply Rinv_0_lt_compat; lra]|].
    apply Rmult_le_reg_r with D; [lra|]. unfold Rdiv. rewrite Rmult_assoc, Rinv_l by lra. unfold D. nra. }
  assert (Hr : 0 <= r <= 1).
  { unfold r. split; [apply Rmult_le_pos; [nra|left; apply Rinv_0_lt_compat; lra]|].
    apply Rmult_le_reg_r with D; [lra|]. unfold Rdiv. rewrite Rmult_assoc, Rinv_l by lra. unfold D.
    assert (X1 : s' * t' <= s') by nra. assert (X2 : s' * t' <= t') by nra.
    assert (X3 : l * (s' * t') <= l * s') by nra. assert (X4 : (1 - l) * (s' * t') <= (1 - l) * t') by nra. lra. }
  exists (lerp e y (1 - r)). split; [exists (1 - r); split; [lra|reflexivity]|].
  exists (p + m * (q - p)). split; [nra|].
  transitivity (lerp u v m).
  - rewrite He, Hu, Hv. unfold r, m. unfold s', t' in *.
    assert (HD' : l * (1 - s) + (1 - l) * (1 - t) <> 0) by (unfold D in HD; lra).
    unfold D. apply v3_eq; cbn; field; exact HD'.
  - rewrite Hux, Hvx. veq.
Qed.

(** Subsequences *)
Section Sub.
Variable T : Type.
Inductive sub : list T -> list T -> Prop :=
| sub_nil : sub [] []
| sub_skip x q l : sub q l -> sub q (x :: l)
| sub_take x q l : sub q l -> sub (x :: q) (x :: l).

Lemma sub_nil_l l : sub [] l. Proof. induction l; constructor; auto. Qed.
Lemma sub_refl l : sub l l. Proof. induction l; [constructor|apply sub_take; auto]. Qed.
Ltac subs := solve [constructor; auto | apply sub_take; auto | apply sub_skip; auto].
Lemma sub_trans a b c : sub a b -> sub b c -> sub a c.
Proof.
  intros H1 H2. revert a H1. induction H2 as [|x q l H IH|x q l H IH]; intros a H1; auto.
  - apply sub_skip; auto.
  - inversion H1; subst; subs.
Qed.
Lemma sub_app a b c d : sub a b -> sub c d -> sub (a ++ c) (b ++ d).
Proof. induction 1; cbn; intros; auto; subs. Qed.
Lemma sub_app_inv q b d : sub q (b ++ d) -> exists q1 q2, q = q1 ++ q2 /\ sub q1 b /\ sub q2 d.
Proof.
  revert q. induction b as [|x b IH]; intros q H; cbn in H.
  - exists [], q. repeat split; [constructor|exact H].
  - inversion H; subst.
    + destruct (IH _ H2) as (q1 & q2 & -> & H3 & H4). exists q1, q2. repeat split; auto; subs.
    + destruct (IH _ H2) as (q1 & q2 & -> & H3 & H4). exists (x :: q1), q2. repeat split; auto; subs.
Qed.
Lemma sub_in q l x : sub q l -> In x q -> In x l.
Proof. induction 1; cbn; intros; auto. destruct H0; auto. Qed.
Lemma sub_one x l : In x l -> sub [x] l.
Proof. induction l as [|y l IH]; intros H; [destruct H|]. destruct H as [->|H]; [apply sub_take, sub_nil_l|apply sub_skip, IH, H]. Qed.
Lemma sub_single q z : sub q [z] -> q = [] \/ q = [z].
Proof.
  intros H. inversion H as [|x q' l H'|x q' l H']; subst; inversion H'; subst; auto.
Qed.
(* subsequence of l ++ [z]: either its last element is that z, or z can be appended *)
Lemma sub_last q l z : sub q (l ++ [z]) -> sub (q ++ [z]) (l ++ [z]) \/ exists q', q = q' ++ [z] /\ sub q' l.
Proof.
  intros H. apply sub_app_inv in H. destruct H as (q1 & q2 & -> & H1 & H2). apply sub_single in H2. destruct H2 as [->| ->].
  - rewrite app_nil_r. left. apply sub_app; [exact H1|apply sub_refl].
  - right. exists q1. auto.
Qed.
Lemma sub_head q z l : sub q (z :: l) -> sub (z :: q) (z :: l) \/ exists q', q = z :: q' /\ sub q' l.
Proof. intros H. inversion H; subst; [left; apply sub_take; auto|right; eauto]. Qed.
End Sub.
Arguments sub {T}. Arguments sub_nil_l {T}. Arguments sub_refl {T}. Arguments sub_trans {T}. Arguments sub_app {T}.
Arguments sub_app_inv {T}. Arguments sub_in {T}. Arguments sub_one {T}. Arguments sub_last {T}. Arguments sub_head {T}.
Arguments sub_single {T}. Arguments sub_skip {T}. Arguments sub_take {T}.

(** Convex cycles: the diagonals of every four vertices in order meet *)
Definition convex (l : list vec3) : Prop := forall a b c d, sub [a; b; c; d] l -> meets a c b d.

Lemma convex_sub l l' : sub l l' -> convex l' -> convex l.
Proof. intros H Hc a b c d Hq. apply Hc. eapply sub_trans; eauto. Qed.

Lemma convex_short l : (List.length l <= 3)%nat -> convex l.
Proof.
  intros H a b c d Hq. exfalso.
  assert (G : forall (q m : list vec3), sub q m -> (List.length q <= List.length m)%nat) by (induction 1; cbn in *; lia).
  apply G in Hq. cbn in Hq. lia.
Qed.

Lemma convex_rot A B : convex (A ++ B) -> convex (B ++ A).
Proof.
  intros Hc a b c d H. apply sub_app_inv in H. destruct H as (q1 & q2 & E & H1 & H2).
  pose proof (sub_app _ _ _ _ H2 H1) as H.
  destruct q1 as [|x1 [|x2 [|x3 [|x4 [|x5 q1]]]]]; cbn in E; try discriminate E.
  - subst q2. rewrite app_nil_r in H. auto.
  - injection E as <- <-. cbn in H. apply Hc in H. auto using meets_comm, meets_flip1, meets_flip2.
  - injection E as <- <- <-. cbn in H. apply Hc in H. auto using meets_comm, meets_flip1, meets_flip2.
  - injection E as <- <- <- <-. cbn in H. apply Hc in H. auto using meets_comm, meets_flip1, meets_flip2.
  - injection E as <- <- <- <- <-. cbn in H. auto.
Qed.

Lemma convex_close u l : convex (u :: l) -> convex (u :: l ++ [u]).
Proof.
  intros Hc a b c d H. change (u :: l ++ [u]) with ((u :: l) ++ [u]) in H.
  apply sub_app_inv in H. destruct H as (q1 & q2 & E & H1 & H2).
  apply sub_single in H2. destruct H2 as [->| ->].
  - rewrite app_nil_r in E. subst q1. auto.
  - destruct q1 as [|x1 [|x2 [|x3 [|x4 q1]]]]; cbn in E; try discriminate E.
    + injection E as <- <- <- <-. apply sub_head in H1. destruct H1 as [H1|(q' & E & H1)].
      * apply Hc in H1. auto using meets_comm, meets_flip1, meets_flip2.
      * injection E as -> <-. apply meets_flip2, meets_shared1.
    + injection E as _ _ _ _ E. destruct q1; discriminate.
Qed.

(* inserting a point of an edge keeps the cycle convex *)
Lemma convex_insert pre A B post e : convex (pre ++ A :: B :: post) -> on_seg e A B -> convex (pre ++ A :: e :: B :: post).
Proof.
  intros Hc He a b c d H.
  assert (Hl : pre ++ A :: e :: B :: post = (pre ++ [A]) ++ [e] ++ (B :: post)) by (rewrite <- app_assoc; reflexivity).
  assert (Hl' : pre ++ A :: B :: post = (pre ++ [A]) ++ (B :: post)) by (rewrite <- app_assoc; reflexivity).
  rewrite Hl in H. rewrite Hl' in Hc.
  apply sub_app_inv in H. destruct H as (q1 & q' & E & H1 & H').
  apply sub_app_inv in H'. destruct H' as (qe & q2 & -> & He' & H2).
  assert (Q : forall p q, sub p (pre ++ [A]) -> sub q (B :: post) -> sub (p ++ q) ((pre ++ [A]) ++ B :: post)) by (intros; apply sub_app; auto).
  apply sub_single in He'. destruct He' as [->| ->].
  { cbn in E. apply Hc. rewrite E. auto. }
  cbn in E.
  pose proof (sub_last _ _ _ H1) as L. pose proof (sub_head _ _ _ H2) as Hd.
  destruct q1 as [|x1 [|x2 [|x3 [|x4 q1]]]]; cbn in E.
  - injection E as -> <-. (* e; b; c; d *)
    apply (cevian A B); auto.
    + destruct L as [L|(q' & E & _)]; [|destruct q'; discriminate]. apply Hc. exact (Q [A] [b; c; d] L H2).
    + destruct Hd as [Hd|(q' & E & _)].
      * apply Hc. exact (Q [] [B; b; c; d] (sub_nil_l _) Hd).
      * injection E as -> _. apply meets_shared1.
  - injection E as <- -> <-. (* a; e; c; d : meets a c e d *)
    apply meets_comm. apply (cevian A B); auto.
    + apply meets_comm. destruct L as [L|(q' & E & _)].
      * apply Hc. exact (Q [a; A] [c; d] L H2).
      * destruct q' as [|? [|]]; try discriminate. injection E as ->. apply meets_shared1.
    + apply meets_comm. destruct Hd as [Hd|(q' & E & _)].
      * apply Hc. exact (Q [a] [B; c; d] H1 Hd).
      * injection E as -> _. apply meets_flip1. apply meets_shared1.
  - injection E as <- <- -> <-. (* a; b; e; d : meets a e b d *)
    apply meets_flip1. apply (cevian A B); auto.
    + apply meets_flip1. destruct L as [L|(q' & E & _)].
      * apply Hc. exact (Q [a; b; A] [d] L H2).
      * destruct q' as [|? [|? [|]]]; try discriminate. injection E as _ ->. apply meets_flip1. apply meets_shared1.
    + apply meets_flip1. destruct Hd as [Hd|(q' & E & _)].
      * apply Hc. exact (Q [a; b] [B; d] H1 Hd).
      * injection E as -> _. apply meets_flip1, meets_flip2, meets_shared1.
  - injection E as <- <- <- -> <-. (* a; b; c; e : meets a c b e *)
    apply meets_comm, meets_flip1. apply (cevian A B); auto.
    + apply meets_flip1, meets_comm. destruct L as [L|(q' & E & _)].
      * apply Hc. exact (Q [a; b; c; A] [] L (sub_nil_l _)).
      * destruct q' as [|? [|? [|? [|]]]]; try discriminate. injection E as _ _ ->. 
        apply meets_flip1, meets_flip2, meets_shared1.
    + apply meets_flip1, meets_comm. destruct Hd as [Hd|(q' & E & _)]; [|discriminate].
      apply Hc. exact (Q [a; b; c] [B] H1 Hd).
  - injection E as _ _ _ _ E. destruct q1; discriminate.
Qed.

(** Convex hulls *)
Inductive hull (l : list vec3) : vec3 -> Prop :=
| hull_in x : In x l -> hull l x
| hull_seg x a b : hull l a -> hull l b -> on_seg x a b -> hull l x.

Lemma hull_mono l l' : (forall x, In x l -> hull l' x) -> forall x, hull l x -> hull l' x.
Proof. intros H x Hx. induction Hx; eauto using hull_seg. Qed.

(* iterated form *)
Fixpoint hl (l : list vec3) (x : vec3) : Prop :=
  match l with
  | [] => False
  | a :: r => x = a \/ exists y, hl r y /\ on_seg x a y
  end.

Lemma hl_in l x : In x l -> hl l x.
Proof.
  induction l as [|a r IH]; intros H; [destruct H|]. destruct H as [->|H]; [left; reflexivity|].
  right. exists x. split; [auto|apply on_seg_r].
Qed.

Lemma hl_seg : forall l x a b, hl l a -> hl l b -> on_seg x a b -> hl l x.
Proof.
  induction l as [|p r IH]; intros x a b Ha Hb Hx; [destruct Ha|].
  destruct Hx as (t & Ht & ->).
  destruct Ha as [->|(y & Hy & (s & Hs & ->))]; destruct Hb as [->|(z & Hz & (s' & Hs' & ->))].
  - left. veq.
  - right. exists z. split; [exact Hz|]. exists (t * s'). split; [nra|]. veq.
  - right. exists y. split; [exact Hy|]. exists ((1 - t) * s). split; [nra|]. veq.
  - right. set (w := (1 - t) * s + t * s').
    destruct (Req_dec w 0) as [Hw|Hw].
    + exists y. split; [exact Hy|]. exists 0. split; [lra|].
      assert (E1 : (1 - t) * s = 0) by (unfold w in Hw; nra). assert (E2 : t * s' = 0) by (unfold w in Hw; nra).
      apply v3_eq; cbn.
      * replace (vx p + s * (vx y - vx p) + t * (vx p + s' * (vx z - vx p) - (vx p + s * (vx y - vx p))))
          with (vx p + (1 - t) * s * (vx y - vx p) + t * s' * (vx z - vx p)) by ring. rewrite E1, E2. ring.
      * replace (vy p + s * (vy y - vy p) + t * (vy p + s' * (vy z - vy p) - (vy p + s * (vy y - vy p))))
          with (vy p + (1 - t) * s * (vy y - vy p) + t * s' * (vy z - vy p)) by ring. rewrite E1, E2. ring.
      * replace (vz p + s * (vz y - vz p) + t * (vz p + s' * (vz z - vz p) - (vz p + s * (vz y - vz p))))
          with (vz p + (1 - t) * s * (vz y - vz p) + t * s' * (vz z - vz p)) by ring. rewrite E1, E2. ring.
    + assert (Hw0 : 0 < w) by (unfold w in *; nra).
      exists (lerp y z (t * s' / w)). split.
      * apply (IH _ y z Hy Hz). exists (t * s' / w). split; [|reflexivity]. split.
        { apply Rmult_le_pos; [nra|left; apply Rinv_0_lt_compat; lra]. }
        { apply Rmult_le_reg_r with w; [lra|]. unfold Rdiv. rewrite Rmult_assoc, Rinv_l by lra. unfold w. nra. }
      * exists w. split; [unfold w; nra|]. unfold w in *. apply v3_eq; cbn; field; exact Hw.
Qed.

Lemma hull_hl l x : hull l x -> hl l x.
Proof. induction 1; eauto using hl_in, hl_seg. Qed.
Lemma hl_hull : forall l x, hl l x -> hull l x.
Proof.
  induction l as [|a r IH]; intros x H; [destruct H|]. destruct H as [->|(y & Hy & Hx)].
  - apply hull_in. left; reflexivity.
  - apply (hull_seg _ x a y); [apply hull_in; left; reflexivity| |exact Hx].
    apply (hull_mono r); [|auto]. intros z Hz. apply hull_in. right; exact Hz.
Qed.

Definition tri (x a b c : vec3) : Prop := hull [a; b; c] x.

(* a quadrilateral is covered by the two triangles of its first diagonal *)
Lemma hl4_coeff x a b c d : hl [a; b; c; d] x -> exists u v w z, 0 <= u /\ 0 <= v /\ 0 <= w /\ 0 <= z /\ u + v + w + z = 1 /\
  x = vadd (vscale u a) (vadd (vscale v b) (vadd (vscale w c) (vscale z d))).
Proof.
  cbn [hl]. intros [->|(y & [->|(y2 & [->|(y3 & [->|(y4 & [] & _)] & t3 & H3 & ->)] & t2 & H2 & ->)] & t1 & H1 & ->)].
  - exists 1, 0, 0, 0. repeat split; try lra. veq.
  - exists (1 - t1), t1, 0, 0. repeat split; try lra. veq.
  - exists (1 - t1), (t1 * (1 - t2)), (t1 * t2), 0. repeat split; try nra. veq.
  - exists (1 - t1), (t1 * (1 - t2)), (t1 * (t2 * (1 - t3))), (t1 * (t2 * t3)).
    assert (0 <= t2 * t3) by nra. assert (0 <= t2 * (1 - t3)) by nra. repeat split; try nra. veq.
Qed.
Lemma tri_coeff x a b c u v w : 0 <= u -> 0 <= v -> 0 <= w -> u + v + w = 1 ->
  x = vadd (vscale u a) (vadd (vscale v b) (vscale w c)) -> tri x a b c.
Proof.
  intros Hu Hv Hw Hs ->. unfold tri.
  assert (Ia : hull [a; b; c] a) by (apply hull_in; cbn; auto).
  assert (Ib : hull [a; b; c] b) by (apply hull_in; cbn; auto).
  assert (Ic : hull [a; b; c] c) by (apply hull_in; cbn; auto).
  destruct (Req_dec u 1) as [->|Hu1].
  - assert (v = 0) by lra. assert (w = 0) by lra. subst. 
    replace (vadd _ _) with a by veq. exact Ia.
  - apply (hull_seg _ _ a (lerp b c (w / (1 - u)))); [exact Ia| |].
    + apply (hull_seg _ _ b c Ib Ic). exists (w / (1 - u)). split; [|reflexivity]. split.
      * apply Rmult_le_pos; [lra|left; apply Rinv_0_lt_compat; lra].
      * apply Rmult_le_reg_r with (1 - u); [lra|]. unfold Rdiv. rewrite Rmult_assoc, Rinv_l by lra. lra.
    + exists (1 - u). split; [lra|]. replace v with (1 - u - w) by lra. apply v3_eq; cbn; field; lra.
Qed.

Lemma quad x a b c d : meets a c b d -> hl [a; b; c; d] x -> tri x a b c \/ tri x a c d.
Proof.
  intros (m & (p & Hp & Hm1) & (q & Hq & Hm2)) Hx.
  destruct (hl4_coeff _ _ _ _ _ Hx) as (u & v & w & z & Hu & Hv & Hw & Hz & Hs & ->).
  (* (1-p) a + p c = (1-q) b + q d *)
  assert (Rx : vadd (vscale (1 - p) a) (vscale p c) = vadd (vscale (1 - q) b) (vscale q d)).
  { transitivity m; [rewrite Hm1; veq|rewrite Hm2; veq]. }
  assert (K : forall s, vadd (vscale u a) (vadd (vscale v b) (vadd (vscale w c) (vscale z d))) =
     vadd (vscale (u + s * (1 - p)) a) (vadd (vscale (v - s * (1 - q)) b) (vadd (vscale (w + s * p) c) (vscale (z - s * q) d)))).
  { intros s. assert (X : vscale s (vadd (vscale (1 - p) a) (vscale p c)) = vscale s (vadd (vscale (1 - q) b) (vscale q d))) by (rewrite Rx; reflexivity).
    unfold vadd, vscale in *. cbn in *. injection X as X1 X2 X3. apply v3_eq; cbn; lra. }
  (* remove b or d *)
  destruct (Rle_dec (v * q) (z * (1 - q))) as [Hc|Hc].
  - (* b is exhausted first (or q = 1) *)
    destruct (Req_dec q 1) as [->|Hq1].
    + assert (v = 0) by nra. right. subst v.
      apply (tri_coeff _ _ _ _ u w z); try lra. veq.
    + right. assert (exists s, 0 <= s /\ s * (1 - q) = v) as (s & Hs0 & Es).
      { exists (v / (1 - q)). split; [apply Rmult_le_pos; [lra|left; apply Rinv_0_lt_compat; lra]|field; lra]. }
      rewrite (K s). apply (tri_coeff _ _ _ _ (u + s * (1 - p)) (w + s * p) (z - s * q)).
      * assert (0 <= s * (1 - p)) by (apply Rmult_le_pos; lra). lra.
      * assert (0 <= s * p) by (apply Rmult_le_pos; lra). lra.
      * assert (X : s * q * (1 - q) <= z * (1 - q)) by (replace (s * q * (1 - q)) with (s * (1 - q) * q) by ring; rewrite Es; lra).
        apply Rmult_le_reg_r in X; lra.
      * replace (u + s * (1 - p) + (w + s * p) + (z - s * q)) with (u + w + z + s * (1 - q)) by ring. rewrite Es. lra.
      * rewrite Es. veq.
  - assert (Hc' : z * (1 - q) < v * q) by lra.
    assert (Hq0 : 0 < q) by (destruct (Req_dec q 0) as [->|]; [nra|lra]).
    left. assert (exists s, 0 <= s /\ s * q = z) as (s & Hs0 & Es).
    { exists (z / q). split; [apply Rmult_le_pos; [lra|left; apply Rinv_0_lt_compat; lra]|field; lra]. }
    rewrite (K s). apply (tri_coeff _ _ _ _ (u + s * (1 - p)) (v - s * (1 - q)) (w + s * p)).
    + assert (0 <= s * (1 - p)) by (apply Rmult_le_pos; lra). lra.
    + assert (X : s * (1 - q) * q <= v * q) by (replace (s * (1 - q) * q) with (s * q * (1 - q)) by ring; rewrite Es; lra).
      apply Rmult_le_reg_r in X; lra.
    + assert (0 <= s * p) by (apply Rmult_le_pos; lra). lra.
    + replace (u + s * (1 - p) + (v - s * (1 - q)) + (w + s * p)) with (u + v + w + s * q) by ring. rewrite Es. lra.
    + rewrite Es. veq.
Qed.

(** The fan of a convex cycle covers its hull *)
Fixpoint fan_cov (p0 : vec3) (l : list vec3) (x : vec3) : Prop :=
  match l with
  | a :: ((b :: _) as r) => tri x p0 a b \/ fan_cov p0 r x
  | _ => False
  end.

Lemma fan_cov_elim p0 : forall l x, fan_cov p0 l x -> exists c d, tri x p0 c d /\ sub [c; d] l.
Proof.
  induction l as [|a r IH]; intros x H; [destruct H|]. destruct r as [|b r]; [destruct H|].
  destruct H as [H|H].
  - exists a, b. split; [exact H|]. apply sub_take, sub_take, sub_nil_l.
  - destruct (IH x H) as (c & d & H1 & H2). exists c, d. split; [exact H1|]. apply sub_skip. exact H2.
Qed.

Lemma tri_hl x p0 l c d : tri x p0 c d -> sub [c; d] l -> hl (p0 :: l) x.
Proof.
  intros H Hs. apply hull_hl. apply (hull_mono [p0; c; d]); [|exact H].
  intros y Hy. apply hull_in. destruct Hy as [<-|Hy]; [left; reflexivity|]. right. eapply sub_in; eauto.
Qed.

Lemma fan_covers p0 : forall l, (2 <= List.length l)%nat -> convex (p0 :: l) -> forall x, hull (p0 :: l) x -> fan_cov p0 l x.
Proof.
  induction l as [|a r IH]; intros Hlen Hc x Hx; [cbn in Hlen; lia|].
  destruct r as [|b r]; [cbn in Hlen; lia|].
  cbn [fan_cov]. destruct r as [|c0 r]; [left; exact Hx|].
  assert (Hc' : convex (p0 :: b :: c0 :: r)).
  { eapply convex_sub; [|exact Hc]. apply sub_take, sub_skip, sub_refl. }
  specialize (IH ltac:(cbn; lia) Hc').
  (* x lies on a segment from a to a point y of the rest *)
  assert (Hx' : hl (a :: p0 :: b :: c0 :: r) x).
  { apply hull_hl. apply (hull_mono (p0 :: a :: b :: c0 :: r)); [|exact Hx]. intros z Hz. apply hull_in. cbn in *. tauto. }
  destruct Hx' as [->|(y & Hy & Hseg)].
  { left. apply hull_in. cbn; auto. }
  pose proof (IH y (hl_hull _ _ Hy)) as Hf.
  destruct (fan_cov_elim _ _ _ Hf) as (c & d & Hycd & Hscd).
  assert (Hx4 : hl [p0; a; c; d] x).
  { apply hull_hl. apply (hull_seg _ _ a y); [apply hull_in; cbn; auto| |exact Hseg].
    apply (hull_mono [p0; c; d]); [|exact Hycd]. intros z Hz. apply hull_in. cbn in *. tauto. }
  assert (Hm : meets p0 c a d) by (apply Hc; do 2 apply sub_take; exact Hscd).
  destruct (quad _ _ _ _ _ Hm Hx4) as [H|H].
  - (* x in triangle p0 a c *)
    assert (Hcin : In c (b :: c0 :: r)) by (eapply sub_in; [exact Hscd|cbn; auto]).
    destruct (sub_head _ _ _ (sub_one c _ Hcin)) as [Hs|(q' & E & _)].
    + assert (Hm2 : meets p0 b a c) by (apply Hc; do 2 apply sub_take; exact Hs).
      assert (Hx5 : hl [p0; a; b; c] x).
      { apply hull_hl. apply (hull_mono [p0; a; c]); [|exact H]. intros z Hz. apply hull_in. cbn in *. tauto. }
      destruct (quad _ _ _ _ _ Hm2 Hx5) as [G|G]; [left; exact G|].
      right. apply IH. apply hl_hull. eapply tri_hl; [exact G|exact Hs].
    + injection E as <- <-. left. exact H.
  - right. apply IH. apply hl_hull. eapply tri_hl; [exact H|exact Hscd].
Qed.
