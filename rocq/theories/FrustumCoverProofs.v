From Verif Require Import Vec3 FrustumModel FrustumSpec FrustumClipProofs ConvexProofs.

Section Plane.
Variable n : vec3.
Notation d := (dot n).

Lemma d_lerp a b t : d (lerp a b t) = (1 - t) * d a + t * d b.
Proof. unfold lerp. rewrite dot_add, dot_scale, dot_sub. ring. Qed.

Definition zc (u v : vec3) : vec3 := lerp u v (d u / (d u - d v)).

Lemma zc_unique y u v : on_seg y u v -> 0 <= d u -> d v < 0 -> d y = 0 -> y = zc u v.
Proof.
  intros (t & Ht & ->) Hu Hv E. rewrite d_lerp in E. unfold zc. f_equal.
  apply Rmult_eq_reg_r with (d u - d v); [|lra]. unfold Rdiv. rewrite Rmult_assoc, Rinv_l by lra. lra.
Qed.
Lemma zc_zero u v : 0 <= d u -> d v < 0 -> d (zc u v) = 0.
Proof. intros Hu Hv. unfold zc. rewrite d_lerp. field. lra. Qed.

Lemma frac01 a b : 0 <= a -> a <= b -> 0 < b -> 0 <= a / b <= 1.
Proof.
  intros Ha Hab Hb. split; [apply Rmult_le_pos; [lra|left; apply Rinv_0_lt_compat; lra]|].
  apply Rmult_le_reg_r with b; [lra|]. unfold Rdiv. rewrite Rmult_assoc, Rinv_l by lra. lra.
Qed.

Lemma zc_left u u1 u2 v : 0 <= d u1 -> 0 <= d u2 -> d v < 0 -> on_seg u u1 u2 -> on_seg (zc u v) (zc u1 v) (zc u2 v).
Proof.
  intros H1 H2 Hv (t & Ht & ->). unfold zc. rewrite d_lerp.
  set (D1 := d u1 - d v). set (D2 := d u2 - d v).
  assert (P1 : 0 < D1) by (unfold D1; lra). assert (P2 : 0 < D2) by (unfold D2; lra).
  set (D := (1 - t) * D1 + t * D2). assert (P : 0 < D) by (unfold D; nra).
  exists (t * D2 / D). split.
  - apply frac01; [nra| |lra]. unfold D. nra.
  - replace (d u1) with (D1 + d v) by (unfold D1; ring). replace (d u2) with (D2 + d v) by (unfold D2; ring).
    assert (Q : (1 - t) * D1 + t * D2 <> 0) by (unfold D in P; lra).
    unfold D. apply v3_eq; cbn; field; repeat split; try lra;
      replace ((1 - t) * (D1 + d v) + t * (D2 + d v) - d v) with ((1 - t) * D1 + t * D2) by ring; lra.
Qed.
Lemma zc_right u v v1 v2 : 0 <= d u -> d v1 < 0 -> d v2 < 0 -> on_seg v v1 v2 -> on_seg (zc u v) (zc u v1) (zc u v2).
Proof.
  intros Hu H1 H2 (t & Ht & ->). unfold zc. rewrite d_lerp.
  set (D1 := d u - d v1). set (D2 := d u - d v2).
  assert (P1 : 0 < D1) by (unfold D1; lra). assert (P2 : 0 < D2) by (unfold D2; lra).
  set (D := (1 - t) * D1 + t * D2). assert (P : 0 < D) by (unfold D; nra).
  exists (t * D2 / D). split.
  - apply frac01; [nra| |lra]. unfold D. nra.
  - replace (d v1) with (d u - D1) by (unfold D1; ring). replace (d v2) with (d u - D2) by (unfold D2; ring).
    assert (Q : (1 - t) * D1 + t * D2 <> 0) by (unfold D in P; lra).
    unfold D. apply v3_eq; cbn; field; repeat split; try lra;
      replace (d u - ((1 - t) * (d u - D1) + t * (d u - D2))) with ((1 - t) * D1 + t * D2) by ring; lra.
Qed.

(* hulls of inside points are inside *)
Lemma hull_inside l x : (forall p, In p l -> 0 <= d p) -> hull l x -> 0 <= d x.
Proof. intros H. induction 1 as [x Hx|x a b Ha IHa Hb IHb (t & Ht & ->)]; [auto|]. rewrite d_lerp. nra. Qed.
Lemma hull_outside l x : (forall p, In p l -> d p < 0) -> hull l x -> d x < 0.
Proof. intros H. induction 1 as [x Hx|x a b Ha IHa Hb IHb (t & Ht & ->)]; [auto|]. rewrite d_lerp. nra. Qed.

Definition insides (l : list vec3) := filter (fun p => Rleb 0 (d p)) l.
Definition outsides (l : list vec3) := filter (fun p => negb (Rleb 0 (d p))) l.
Lemma insides_in l p : In p (insides l) <-> In p l /\ 0 <= d p.
Proof. unfold insides. rewrite filter_In, Rleb_true. reflexivity. Qed.
Lemma outsides_in l p : In p (outsides l) <-> In p l /\ d p < 0.
Proof. unfold outsides. rewrite filter_In. destruct (Rleb 0 (d p)) eqn:E; rb; cbn; split; intros [H1 H2]; try discriminate; try lra; auto. Qed.

(* x splits into an inside part y and an outside part z *)
Definition dec (l : list vec3) (x : vec3) : Prop :=
  exists t y z, 0 <= t <= 1 /\ x = lerp y z t /\ (t < 1 -> hull (insides l) y) /\ (0 < t -> hull (outsides l) z).

Lemma dec_cons a l x : dec l x -> dec (a :: l) x.
Proof.
  intros (t & y & z & Ht & E & H1 & H2). exists t, y, z. split; [exact Ht|]. split; [exact E|]. split.
  - intros G. apply (hull_mono (insides l)); [|auto]. intros p Hp. apply hull_in. rewrite insides_in in *. cbn; tauto.
  - intros G. apply (hull_mono (outsides l)); [|auto]. intros p Hp. apply hull_in. rewrite outsides_in in *. cbn; tauto.
Qed.

Lemma hl_dec : forall l x, hl l x -> dec l x.
Proof.
  induction l as [|a l IH]; intros x H; [destruct H|].
  destruct H as [->|(x' & Hx' & (s & Hs & ->))].
  - destruct (Rle_dec 0 (d a)) as [Ha|Ha].
    + exists 0, a, a. split; [lra|]. split; [veq|]. split; [|lra]. intros _. apply hull_in. rewrite insides_in. cbn; auto.
    + exists 1, a, a. split; [lra|]. split; [veq|]. split; [lra|]. intros _. apply hull_in. rewrite outsides_in. split; [cbn; auto|lra].
  - pose proof (dec_cons a l x' (IH x' Hx')) as (t & y & z & Ht & -> & H1 & H2).
    destruct (Rle_dec 0 (d a)) as [Ha|Ha].
    + assert (Ia : hull (insides (a :: l)) a) by (apply hull_in; rewrite insides_in; cbn; auto).
      destruct (Req_dec (s * t) 1) as [E|E].
      * assert (s = 1) by nra. assert (t = 1) by nra. subst. exists 1, y, z. split; [lra|]. split; [veq|]. split; [lra|]. intros _. apply H2; lra.
      * assert (W : 0 < 1 - s * t) by nra.
        exists (s * t), (lerp a y (s * (1 - t) / (1 - s * t))), z. split; [nra|]. split.
        { apply v3_eq; cbn; field; lra. }
        split; [|intros G; apply H2; nra]. intros _.
        destruct (Req_dec t 1) as [->|Et].
        { replace (lerp a y _) with a; [exact Ia|]. apply v3_eq; cbn; field; lra. }
        apply (hull_seg _ _ a y Ia); [apply H1; lra|]. exists (s * (1 - t) / (1 - s * t)). split; [|reflexivity].
        apply frac01; nra.
    + assert (Ia : hull (outsides (a :: l)) a) by (apply hull_in; rewrite outsides_in; split; [cbn; auto|lra]).
      set (W := (1 - s) + s * t).
      destruct (Req_dec W 0) as [E|E].
      * assert (s = 1) by (unfold W in E; nra). subst s. assert (t = 0) by (unfold W in E; nra). subst t.
        exists 0, y, z. split; [lra|]. split; [veq|]. split; [|lra]. intros _. apply H1; lra.
      * assert (P : 0 < W) by (unfold W in *; nra).
        exists W, y, (lerp a z (s * t / W)). split; [unfold W; nra|]. split.
        { unfold W in *. apply v3_eq; cbn; field; lra. }
        split; [intros G; apply H1; unfold W in *; nra|]. intros _.
        destruct (Req_dec t 0) as [->|Et].
        { replace (lerp a z _) with a; [exact Ia|]. unfold W in *. apply v3_eq; cbn; field; lra. }
        apply (hull_seg _ _ a z Ia); [apply H2; lra|]. exists (s * t / W). split; [|reflexivity].
        apply frac01; [nra|unfold W; nra|lra].
Qed.

(* the visible part of a hull lies in every convex set that holds the inside vertices and the crossings
   of all chords from inside to outside vertices *)
Lemma visible_part (S : vec3 -> Prop) l x :
  (forall y a b, S a -> S b -> on_seg y a b -> S y) ->
  (forall u, In u l -> 0 <= d u -> S u) ->
  (forall u v, In u l -> In v l -> 0 <= d u -> d v < 0 -> S (zc u v)) ->
  hull l x -> 0 <= d x -> S x.
Proof.
  intros HS H1 H2 Hx Hd. destruct (hl_dec l x (hull_hl l x Hx)) as (t & y & z & Ht & -> & Hy & Hz).
  assert (Hin : forall p, In p (insides l) -> 0 <= d p) by (intros p Hp; apply insides_in in Hp; tauto).
  assert (Hout : forall p, In p (outsides l) -> d p < 0) by (intros p Hp; apply outsides_in in Hp; tauto).
  assert (SI : forall y, hull (insides l) y -> S y).
  { intros y0 H. induction H as [p Hp|p a b Ha IHa Hb IHb Hs]; [apply insides_in in Hp; apply H1; tauto|eauto]. }
  destruct (Req_dec t 0) as [->|Ht0].
  { replace (lerp y z 0) with y by veq. apply SI, Hy. lra. }
  destruct (Req_dec t 1) as [->|Ht1].
  { exfalso. replace (lerp y z 1) with z in Hd by veq. pose proof (hull_outside _ _ Hout (Hz ltac:(lra))). lra. }
  specialize (Hy ltac:(lra)). specialize (Hz ltac:(lra)).
  pose proof (hull_inside _ _ Hin Hy) as Dy. pose proof (hull_outside _ _ Hout Hz) as Dz.
  assert (SZ : S (zc y z)).
  { assert (SV : forall v y0, In v l -> d v < 0 -> hull (insides l) y0 -> S (zc y0 v)).
    { intros v y0 Hv Dv H. induction H as [q Hq|q a b Ha IHa Hb IHb Hs]; [apply insides_in in Hq; apply H2; tauto|].
      apply (HS _ (zc a v) (zc b v)); auto. apply zc_left; auto; eapply hull_inside; eauto. }
    clear Hd Dz Hx. induction Hz as [q Hq|q a b Ha IHa Hb IHb Hs]; [apply outsides_in in Hq; apply SV; tauto|].
    apply (HS _ (zc y a) (zc y b)); auto. apply zc_right; auto; eapply hull_outside; eauto. }
  apply (HS _ y (zc y z)); [apply SI, Hy|exact SZ|].
  rewrite d_lerp in Hd. unfold zc.
  destruct (Req_dec (d y) 0) as [E|E]; [exfalso; rewrite E in Hd; nra|].
  exists (t * (d y - d z) / d y). split.
  - apply frac01; nra.
  - apply v3_eq; cbn; field; lra.
Qed.
End Plane.

(** Refinement of a vertex cycle by the crossing points *)
Section Refine.
Variable n : vec3.
Notation dv v := (dot n (v_pos v)).

(* the crossing vertex of an edge, if the signs differ, then the next vertex *)
Definition crossing (a b : vertex) : list vertex :=
  if xorb (inn n a) (inn n b) then [lerp_vertex a b (dv a / (dv a - dv b))] else [].
Definition refine_edge (a b : vertex) : list vertex := crossing a b ++ [b].
Definition pos (l : list vertex) : list vec3 := map v_pos l.

Lemma pos_lerp a b t : v_pos (lerp_vertex a b t) = lerp (v_pos a) (v_pos b) t.
Proof. reflexivity. Qed.

Lemma crossing_spec a b e : In e (crossing a b) -> on_seg (v_pos e) (v_pos a) (v_pos b) /\ dv e = 0 /\ In e (edge_out n a b).
Proof.
  unfold crossing, inn, edge_out. destruct (Rleb 0 (dv a)) eqn:Ea; destruct (Rleb 0 (dv b)) eqn:Eb; cbn [xorb andb negb]; intros H; try destruct H as [<-|[]]; try destruct H; rb.
  - destruct (ratio_leave _ _ Ea Eb) as [R1 R2]. split; [eexists; split; [exact R1|reflexivity]|]. split; [|left; reflexivity].
    rewrite dist_lerp. exact R2.
  - destruct (ratio_enter _ _ Ea Eb) as [R1 R2]. split; [eexists; split; [exact R1|reflexivity]|]. split; [|left; reflexivity].
    rewrite dist_lerp. exact R2.
Qed.

Lemma refine_convex : forall l pre a, convex (pos (pre ++ a :: l)) -> convex (pos (pre ++ a :: walk refine_edge a l)).
Proof.
  induction l as [|b l IH]; intros pre a H; cbn [walk]; [exact H|].
  unfold refine_edge at 1. unfold crossing. destruct (xorb (inn n a) (inn n b)) eqn:E.
  - set (e := lerp_vertex a b (dv a / (dv a - dv b))) in *. cbn [app].
    replace (pre ++ a :: e :: b :: walk refine_edge b l) with ((pre ++ [a; e]) ++ b :: walk refine_edge b l) by (rewrite <- app_assoc; reflexivity).
    apply IH. rewrite <- app_assoc. cbn [app]. unfold pos in *. rewrite map_app in *. cbn [map] in *.
    apply convex_insert; [exact H|]. apply (crossing_spec a b e). unfold crossing. rewrite E. left; reflexivity.
  - cbn [app]. replace (pre ++ a :: b :: walk refine_edge b l) with ((pre ++ [a]) ++ b :: walk refine_edge b l) by (rewrite <- app_assoc; reflexivity).
    apply IH. rewrite <- app_assoc. exact H.
Qed.

Lemma walk_app g : forall l1 a b l2, walk g a (l1 ++ b :: l2) = walk g a (l1 ++ [b]) ++ walk g b l2.
Proof.
  induction l1 as [|c l1 IH]; intros a b l2; cbn [app walk]; [rewrite app_nil_r; reflexivity|].
  rewrite IH, app_assoc. reflexivity.
Qed.

(* the clipped walk is a subsequence of the refined walk *)
Lemma walk_sub : forall l a, sub (walk (edge_out n) a l) (walk refine_edge a l).
Proof.
  induction l as [|b l IH]; intros a; cbn [walk]; [constructor|]. apply sub_app; [|apply IH].
  unfold edge_out, refine_edge, crossing, inn. destruct (Rleb 0 (dv a)), (Rleb 0 (dv b)); cbn [xorb andb negb app].
  - apply sub_refl.
  - apply sub_take, sub_skip, sub_nil_l.
  - apply sub_refl.
  - apply sub_nil_l.
Qed.

(* along a path whose ends have different signs there is a crossing before the end *)
Lemma path_crossing : forall l a v, inn n a <> inn n v ->
  exists e, sub [e; v] (walk refine_edge a (l ++ [v])) /\ In e (walk (edge_out n) a (l ++ [v])) /\ dv e = 0.
Proof.
  induction l as [|b l IH]; intros a v H; cbn [app walk].
  - exists (lerp_vertex a v (dv a / (dv a - dv v))).
    assert (E : crossing a v = [lerp_vertex a v (dv a / (dv a - dv v))]).
    { unfold crossing. destruct (inn n a), (inn n v); try congruence; reflexivity. }
    unfold refine_edge. rewrite E, app_nil_r. cbn [app]. split; [apply sub_refl|].
    destruct (crossing_spec a v (lerp_vertex a v (dv a / (dv a - dv v)))) as (_ & H2 & H3); [rewrite E; left; reflexivity|].
    split; [apply in_or_app; left; exact H3|exact H2].
  - destruct (Bool.bool_dec (inn n b) (inn n v)) as [E|E].
    + assert (Hab : inn n a <> inn n b) by congruence.
      exists (lerp_vertex a b (dv a / (dv a - dv b))).
      assert (Ec : crossing a b = [lerp_vertex a b (dv a / (dv a - dv b))]).
      { unfold crossing. destruct (inn n a), (inn n b); try congruence; reflexivity. }
      unfold refine_edge at 1. rewrite Ec. cbn [app]. split.
      * apply sub_take, sub_skip. apply sub_one.
        clear. revert b. induction l as [|c l IH]; intros b; cbn [app walk]; apply in_or_app.
        { left. unfold refine_edge. apply in_or_app. right; left; reflexivity. }
        { right. apply IH. }
      * destruct (crossing_spec a b (lerp_vertex a b (dv a / (dv a - dv b)))) as (_ & H2 & H3); [rewrite Ec; left; reflexivity|].
        split; [apply in_or_app; left; exact H3|exact H2].
    + destruct (IH b v E) as (e & H1 & H2 & H3). exists e. split; [|split; [apply in_or_app; right; exact H2|exact H3]].
      apply (sub_app [] _ [e; v] _); [apply sub_nil_l|exact H1].
Qed.

Lemma pos_sub q l : sub q l -> sub (pos q) (pos l).
Proof. induction 1; cbn; [constructor|apply sub_skip; auto|apply sub_take; auto]. Qed.

Lemma clip_rot A B : forall x, In x (clip_polygon n (A ++ B)) -> In x (clip_polygon n (B ++ A)).
Proof.
  intros x. destruct A as [|a A]; [rewrite app_nil_r; auto|]. destruct B as [|b B]; [rewrite app_nil_r; auto|].
  cbn [app]. rewrite !clip_polygon_walk. rewrite <- !app_assoc. cbn [app]. rewrite !(walk_app _ _ _ _ (_ ++ _)).
  intros H. apply in_app_or in H. apply in_or_app. tauto.
Qed.

Lemma clip_convex P : convex (pos P) -> convex (pos (clip_polygon n P)).
Proof.
  destruct P as [|p0 l]; [auto|]. intros H. rewrite clip_polygon_walk.
  apply (convex_sub _ (pos (p0 :: walk refine_edge p0 (l ++ [p0])))).
  - cbn [pos map]. apply sub_skip. apply pos_sub, walk_sub.
  - apply (refine_convex (l ++ [p0]) [] p0). cbn [app]. unfold pos in *. cbn [map] in *. rewrite map_app. cbn [map].
    apply convex_close, H.
Qed.

Lemma walk_keeps_inside : forall l a v, In v l -> inn n v = true -> In v (walk (edge_out n) a l).
Proof.
  induction l as [|b l IH]; intros a v Hv E; [destruct Hv|]. cbn [walk]. apply in_or_app.
  destruct Hv as [->|Hv]; [|right; auto]. left. unfold inn in E. unfold edge_out. rewrite E.
  destruct (Rleb 0 (dv a)); cbn; auto.
Qed.

Lemma clip_keeps_inside P v : In v P -> inn n v = true -> In v (clip_polygon n P).
Proof.
  intros Hv E. destruct P as [|p0 l]; [destruct Hv|]. rewrite clip_polygon_walk. apply walk_keeps_inside; [|exact E].
  apply in_or_app. destruct Hv as [->|Hv]; [right; left; reflexivity|left; exact Hv].
Qed.

(* crossings of chords *)
Lemma chord_crossing P u v : convex (pos P) -> In u P -> In v P -> 0 <= dv u -> dv v < 0 ->
  hull (pos (clip_polygon n P)) (zc n (v_pos u) (v_pos v)).
Proof.
  intros Hc Hu Hv Du Dv.
  destruct (in_split _ _ Hu) as (A & B & EP).
  set (Q := u :: B ++ A).
  assert (HcQ : convex (pos Q)).
  { unfold Q, pos. change (u :: B ++ A) with ((u :: B) ++ A). rewrite map_app. apply convex_rot. rewrite <- map_app.
    rewrite <- EP. exact Hc. }
  assert (HvQ : In v (B ++ A)).
  { rewrite EP in Hv. apply in_app_or in Hv. apply in_or_app. destruct Hv as [Hv|[->|Hv]]; auto. lra. }
  destruct (in_split _ _ HvQ) as (l1 & l2 & El).
  assert (Iu : inn n u = true) by (unfold inn; apply Rleb_true; exact Du).
  assert (Iv : inn n v = false) by (unfold inn; apply Rleb_false; exact Dv).
  destruct (path_crossing l1 u v ltac:(congruence)) as (e1 & S1 & I1 & D1).
  destruct (path_crossing l2 v u ltac:(congruence)) as (e2 & S2 & I2 & D2).
  (* the refined closed cycle is convex *)
  assert (HR : convex (pos (u :: walk refine_edge u ((B ++ A) ++ [u])))).
  { apply (refine_convex ((B ++ A) ++ [u]) [] u). cbn [app]. unfold pos in *. cbn [map]. rewrite map_app. cbn [map].
    unfold Q in HcQ. cbn [map] in HcQ. apply convex_close, HcQ. }
  assert (HS : sub [u; e1; v; e2] (u :: walk refine_edge u ((B ++ A) ++ [u]))).
  { apply sub_take. rewrite El, <- app_assoc. cbn [app]. rewrite walk_app.
    change [e1; v; e2] with ([e1; v] ++ [e2]). apply sub_app; [exact S1|].
    eapply sub_trans; [|exact S2]. apply sub_take, sub_nil_l. }
  pose proof (HR _ _ _ _ (pos_sub _ _ HS)) as (y & Hy1 & Hy2).
  assert (Dy : dot n y = 0).
  { destruct Hy2 as (t & Ht & ->). rewrite d_lerp. rewrite D1, D2. ring. }
  rewrite <- (zc_unique n y (v_pos u) (v_pos v) Hy1 Du Dv Dy).
  assert (IC : forall e, In e (walk (edge_out n) u ((B ++ A) ++ [u])) -> In e (clip_polygon n P)).
  { intros e He. rewrite EP. change (A ++ u :: B) with (A ++ (u :: B)). apply clip_rot. cbn [app]. rewrite clip_polygon_walk. exact He. }
  apply (hull_seg _ y (v_pos e1) (v_pos e2)); [| |exact Hy2]; apply hull_in, in_map, IC;
    rewrite El, <- app_assoc; cbn [app]; rewrite walk_app; apply in_or_app; auto.
Qed.

Lemma clip_covers P x : convex (pos P) -> hull (pos P) x -> 0 <= dot n x -> hull (pos (clip_polygon n P)) x.
Proof.
  intros Hc Hx Hd. apply (visible_part n (hull (pos (clip_polygon n P))) (pos P) x); auto.
  - intros y a b Ha Hb Hy. exact (hull_seg _ y a b Ha Hb Hy).
  - intros u Hu Du. apply in_map_iff in Hu. destruct Hu as (w & <- & Hw). apply hull_in, in_map.
    apply clip_keeps_inside; [exact Hw|]. unfold inn. apply Rleb_true. exact Du.
  - intros u v Hu Hv Du Dv. apply in_map_iff in Hu. destruct Hu as (w & <- & Hw). apply in_map_iff in Hv. destruct Hv as (w' & <- & Hw').
    apply chord_crossing; auto.
Qed.
End Refine.

Lemma clip_planes_covers : forall normals P x, convex (pos P) -> hull (pos P) x -> inside_all normals x ->
  convex (pos (clip_planes normals P)) /\ hull (pos (clip_planes normals P)) x.
Proof.
  induction normals as [|n r IH]; intros P x Hc Hx Hin; cbn [clip_planes]; [auto|].
  pose proof (clip_convex n P Hc) as Hc'.
  pose proof (clip_covers n P x Hc Hx (Hin n (or_introl eq_refl))) as Hx'.
  destruct (clip_polygon n P) as [|q qs] eqn:E.
  - exfalso. cbn in Hx'. clear -Hx'. assert (G : forall l y, hull l y -> l = [] -> False) by (induction 1; intros; subst; auto). eapply G; eauto.
  - rewrite <- E in *. apply IH; auto. intros m Hm. apply Hin. right; exact Hm.
Qed.

Lemma tri_in_triangle x a b c : tri x a b c -> in_triangle x a b c.
Proof.
  unfold tri. intros H. induction H as [x Hx|x p q Hp IHp Hq IHq (t & Ht & ->)].
  - destruct Hx as [<-|[<-|[<-|[]]]]; [exists 1, 0, 0|exists 0, 1, 0|exists 0, 0, 1]; (split; [unfold weights; lra|]); unfold comb; veq.
  - destruct IHp as (u & v & w & (H1 & H2 & H3 & H4) & ->). destruct IHq as (u' & v' & w' & (H1' & H2' & H3' & H4') & ->).
    exists (u + t * (u' - u)), (v + t * (v' - v)), (w + t * (w' - w)). split; [unfold weights; repeat split; nra|]. unfold comb. veq.
Qed.
Lemma in_triangle_tri x a b c : in_triangle x a b c -> tri x a b c.
Proof. intros (u & v & w & (H1 & H2 & H3 & H4) & ->). unfold comb. apply (tri_coeff _ a b c u v w); auto. Qed.

Lemma fan_cov_fan p0 : forall l pre x, fan_cov (v_pos p0) (pos l) x -> 
  forall P, P = pre ++ l -> (1 <= List.length pre)%nat -> 
  exists i, (List.length pre <= i)%nat /\ (i + 1 < List.length P)%nat /\ tri x (v_pos p0) (v_pos (nth i P p0)) (v_pos (nth (i + 1) P p0)).
Proof.
  induction l as [|a l IH]; intros pre x H P EP Hp; [destruct H|].
  destruct l as [|b l]; [destruct H|]. cbn [pos map fan_cov] in H. destruct H as [H|H].
  - exists (List.length pre). split; [lia|]. rewrite EP. rewrite app_length. cbn [List.length]. split; [lia|].
    rewrite app_nth2, Nat.sub_diag by lia. rewrite app_nth2 by lia. replace (List.length pre + 1 - List.length pre)%nat with 1%nat by lia. exact H.
  - destruct (IH (pre ++ [a]) x H P) as (i & H1 & H2 & H3); [rewrite <- app_assoc; exact EP|rewrite app_length; cbn; lia|].
    exists i. rewrite app_length in H1. cbn in H1. split; [lia|auto].
Qed.

Lemma fan_hull P x : (3 <= List.length P)%nat -> convex (pos P) -> hull (pos P) x ->
  exists a b c, In (a, b, c) (fan P) /\ in_triangle x (v_pos a) (v_pos b) (v_pos c).
Proof.
  intros Hlen Hc Hx. destruct P as [|p0 l]; [cbn in Hlen; lia|].
  assert (Hf : fan_cov (v_pos p0) (pos l) x).
  { apply fan_covers; auto. unfold pos. rewrite map_length. cbn in Hlen. lia. }
  destruct (fan_cov_fan p0 l [p0] x Hf (p0 :: l) eq_refl ltac:(cbn; lia)) as (i & H1 & H2 & H3).
  exists p0, (nth i (p0 :: l) p0), (nth (i + 1) (p0 :: l) p0). split; [|apply tri_in_triangle, H3].
  unfold fan. apply (in_map (fun i => (p0, nth i (p0 :: l) p0, nth (i + 1) (p0 :: l) p0))). apply in_seq. cbn in H1 |- *. cbn in H2. lia.
Qed.
