(* Property theorems for the frustum: C20, C21, C23 (exact real arithmetic). *)
From Verif Require Import Vec3 FrustumModel FrustumSpec FrustumClipProofs ConvexProofs FrustumCoverProofs FrustumArcProofs.

(* contains is the conjunction of the half-space tests *)
Theorem frustum_contains_iff : forall (normals : list vec3) (p : vec3),
  contains normals p = true <-> inside_all normals p.
Proof.
  induction normals as [|n r IH]; intros p; cbn [contains].
  - split; [intros _ m []|reflexivity].
  - destruct (Rltb (dot n p) 0) eqn:E; rb.
    + split; [discriminate|]. intros H. specialize (H n (or_introl eq_refl)). lra.
    + rewrite IH. split.
      * intros H m [<-|Hm]; [exact E|apply H, Hm].
      * intros H m Hm. apply H. right; exact Hm.
Qed.
Print Assumptions frustum_contains_iff.

(* C20. For every set of planes and every triangle (degenerate ones included), clip_triangle returns
   normally; every vertex of every returned triangle is inside all planes and interpolates the input
   vertices, with the same weights for position and every attribute; and the returned triangles cover
   exactly the part of the triangle that is inside all planes. *)
Theorem clip_triangle_exact : forall (normals : list vec3) (a b c : vertex),
  exists out, clip_triangle normals a b c = Ok out /\
  (forall x y z v, In (x, y, z) out -> In v [x; y; z] ->
     inside_all normals (v_pos v) /\ interpolates v a b c) /\
  (forall p, (in_triangle p (v_pos a) (v_pos b) (v_pos c) /\ inside_all normals p) <->
     exists x y z, In (x, y, z) out /\ in_triangle p (v_pos x) (v_pos y) (v_pos z)).
Proof.
  intros normals a b c. set (P := clip_planes normals [a; b; c]).
  assert (Hsize : List.length P = 0%nat \/ (3 <= List.length P)%nat) by (apply clip_planes_size; cbn; lia).
  assert (Hout : clip_triangle normals a b c = Ok (fan P)).
  { unfold clip_triangle. fold P. destruct P as [|q qs]; [reflexivity|].
    replace (Nat.ltb (List.length (q :: qs)) 2) with false; [reflexivity|].
    symmetry. apply Nat.ltb_ge. cbn [List.length] in *. lia. }
  exists (fan P). split; [exact Hout|].
  assert (HV : forall v, In v P -> inside_all normals (v_pos v) /\ interpolates v a b c).
  { intros v Hv. destruct (clip_planes_in a b c normals [a; b; c]) with (x := v) as (H1 & H2 & H3); auto.
    intros x Hx. apply interpolates_self, Hx. }
  split.
  - intros x y z v Hin Hv. destruct (fan_in _ _ _ _ Hin) as (H1 & H2 & H3).
    apply HV. destruct Hv as [<-|[<-|[<-|[]]]]; assumption.
  - intros p. split.
    + intros [Ht Hi].
      destruct (clip_planes_covers normals [a; b; c] p) as [Hc Hh]; auto.
      { apply convex_short. cbn. lia. }
      { apply in_triangle_tri in Ht. exact Ht. }
      fold P in Hc, Hh. destruct Hsize as [E|E].
      { exfalso. destruct P; [|discriminate]. cbn in Hh. clear -Hh. 
        assert (G : forall l y, hull l y -> l = [] -> False) by (induction 1; intros; subst; auto). eapply G; eauto. }
      destruct (fan_hull P p E Hc Hh) as (x & y & z & Hin & Hp). exists x, y, z. auto.
    + intros (x & y & z & Hin & (u & v & w & (Hu & Hv & Hw & Hs) & ->)).
      destruct (fan_in _ _ _ _ Hin) as (H1 & H2 & H3).
      destruct (HV x H1) as (I1 & (u1 & v1 & w1 & (P1 & P2 & P3 & P4) & E1 & _)).
      destruct (HV y H2) as (I2 & (u2 & v2 & w2 & (Q1 & Q2 & Q3 & Q4) & E2 & _)).
      destruct (HV z H3) as (I3 & (u3 & v3 & w3 & (R1 & R2 & R3 & R4) & E3 & _)).
      split.
      * exists (u * u1 + v * u2 + w * u3), (u * v1 + v * v2 + w * v3), (u * w1 + v * w2 + w * w3).
        split.
        { unfold weights. repeat split.
          - repeat apply Rplus_le_le_0_compat; apply Rmult_le_pos; assumption.
          - repeat apply Rplus_le_le_0_compat; apply Rmult_le_pos; assumption.
          - repeat apply Rplus_le_le_0_compat; apply Rmult_le_pos; assumption.
          - replace (u * u1 + v * u2 + w * u3 + (u * v1 + v * v2 + w * v3) + (u * w1 + v * w2 + w * w3))
              with (u * (u1 + v1 + w1) + v * (u2 + v2 + w2) + w * (u3 + v3 + w3)) by ring. rewrite P4, Q4, R4. lra. }
        unfold comb. rewrite E1, E2, E3. unfold comb. apply v3_eq; cbn; ring.
      * intros n Hn. unfold comb. rewrite !dot_add, !dot_scale.
        specialize (I1 n Hn). specialize (I2 n Hn). specialize (I3 n Hn).
        repeat apply Rplus_le_le_0_compat; apply Rmult_le_pos; assumption.
Qed.
Print Assumptions clip_triangle_exact.

(* a triangle inside all planes comes back as itself, its vertices cyclically rotated *)
Theorem clip_triangle_inside : forall (normals : list vec3) (a b c : vertex),
  (forall v, In v [a; b; c] -> inside_all normals (v_pos v)) ->
  exists t, clip_triangle normals a b c = Ok [t] /\ In t [(a, b, c); (b, c, a); (c, a, b)].
Proof.
  intros normals a b c H.
  assert (G : forall ns P, In P [[a; b; c]; [b; c; a]; [c; a; b]] -> (forall v, In v [a; b; c] -> inside_all ns (v_pos v)) ->
     In (clip_planes ns P) [[a; b; c]; [b; c; a]; [c; a; b]]).
  { clear. induction ns as [|n r IH]; intros P HP H; [exact HP|]. cbn [clip_planes].
    assert (D : forall v, In v [a; b; c] -> 0 <= dot n (v_pos v)) by (intros v Hv; apply (H v Hv n (or_introl eq_refl))).
    assert (K : In (clip_polygon n P) [[a; b; c]; [b; c; a]; [c; a; b]]).
    { destruct HP as [<-|[<-|[<-|[]]]]; rewrite clip_polygon_walk, walk_all_in; cbn; auto;
      intros x Hx; apply D; cbn in *; tauto. }
    specialize (IH _ K ltac:(intros v Hv m Hm; apply (H v Hv m (or_intror Hm)))).
    destruct (clip_polygon n P) as [|q qs]; [|exact IH]. cbn in K. destruct K as [K|[K|[K|[]]]]; discriminate. }
  specialize (G normals [a; b; c] (or_introl eq_refl) H). unfold clip_triangle.
  destruct G as [<-|[<-|[<-|[]]]]; (eexists; split; [reflexivity|cbn; auto]).
Qed.
Print Assumptions clip_triangle_inside.

(* a triangle entirely outside one plane yields nothing *)
Theorem clip_triangle_outside : forall (normals : list vec3) (a b c : vertex) (n : vec3),
  In n normals -> (forall v, In v [a; b; c] -> dot n (v_pos v) < 0) -> clip_triangle normals a b c = Ok [].
Proof.
  intros normals a b c n Hn H.
  destruct (clip_triangle_exact normals a b c) as (out & E & Hv & _). rewrite E. f_equal.
  destruct out as [|[[x y] z] out]; [reflexivity|]. exfalso.
  destruct (Hv x y z x (or_introl eq_refl) (or_introl eq_refl)) as (Hi & (u & v & w & (Hu & Hw & Hz & Hs) & Ex & _)).
  specialize (Hi n Hn). rewrite Ex in Hi. unfold comb in Hi. rewrite !dot_add, !dot_scale in Hi.
  pose proof (H a ltac:(cbn; auto)). pose proof (H b ltac:(cbn; auto)). pose proof (H c ltac:(cbn; auto)).
  destruct (Rtotal_order u 0) as [?|[->|?]]; [lra| |nra].
  destruct (Rtotal_order v 0) as [?|[->|?]]; [lra| |nra]. nra.
Qed.
Print Assumptions clip_triangle_outside.

(* a concrete crossing case: the plane x >= 0 cuts the triangle (-1,0,1) (1,0,1) (0,2,1) *)
Example clip_triangle_example :
  let a := Vx (V3 (-1) 0 1) (fun _ => 0) in let b := Vx (V3 1 0 1) (fun _ => 1) in let c := Vx (V3 0 2 1) (fun _ => 2) in
  exists out, clip_triangle [V3 1 0 0] a b c = Ok out /\
    (exists x y z, In (x, y, z) out /\ in_triangle (V3 (1/4) (1/2) 1) (v_pos x) (v_pos y) (v_pos z)) /\
    ~ (exists x y z, In (x, y, z) out /\ in_triangle (V3 (-1/4) (1/2) 1) (v_pos x) (v_pos y) (v_pos z)).
Proof.
  intros a b c. destruct (clip_triangle_exact [V3 1 0 0] a b c) as (out & E & _ & Hc). exists out. split; [exact E|].
  split.
  - apply Hc. split.
    + exists (1/4), (1/2), (1/4). split; [unfold weights; lra|]. unfold comb, a, b, c. apply v3_eq; cbn; lra.
    + intros n [<-|[]]. unfold dot; cbn. lra.
  - rewrite <- Hc. intros [_ H]. specialize (H _ (or_introl eq_refl)). unfold dot in H; cbn in H. lra.
Qed.

(* C21. For all sorted lists of disjoint intervals: the intersection is sorted and disjoint, a parameter
   is inside one of its intervals exactly when it is inside an interval of both lists, and every interval
   of the result lies in an interval of each list (end points included). *)
Theorem intersect_intervals_exact : forall a b : list interval, sorted_disjoint a -> sorted_disjoint b ->
  sorted_disjoint (intersect a b) /\
  (forall t, covers_open (intersect a b) t <-> covers_open a t /\ covers_open b t) /\
  (forall t, covers (intersect a b) t -> covers a t /\ covers b t).
Proof.
  intros a b Sa Sb. split; [apply intersect_sorted; assumption|]. split.
  - intros t. split.
    + intros (c & d & Hin & Ht). destruct (intersect_sub _ _ _ _ Hin) as (_ & (x & y & Hx & G) & (x' & y' & Hx' & G')).
      split; [exists x, y|exists x', y']; (split; [assumption|lra]).
    + intros [Ha Hb]. apply intersect_covers; assumption.
  - intros t (c & d & Hin & Ht). destruct (intersect_sub _ _ _ _ Hin) as (_ & (x & y & Hx & G) & (x' & y' & Hx' & G')).
    split; [exists x, y|exists x', y']; (split; [assumption|lra]).
Qed.
Print Assumptions intersect_intervals_exact.

Example intersect_example :
  let a := [(0, 2); (3, 5)] in let b := [(1, 4)] in
  sorted_disjoint a /\ sorted_disjoint b /\ covers_open (intersect a b) (7 / 2) /\ ~ covers_open (intersect a b) (5 / 2).
Proof.
  intros a b.
  assert (Sa : sorted_disjoint a).
  { cbn. split; [lra|]. split; [intros c d [E|[]]; injection E as <- <-; lra|]. split; [lra|]. split; [intros c d []|exact I]. }
  assert (Sb : sorted_disjoint b) by (cbn; split; [lra|split; [intros c d []|exact I]]).
  destruct (intersect_intervals_exact a b Sa Sb) as (_ & H & _).
  split; [exact Sa|]. split; [exact Sb|]. split.
  - apply H. split; [exists 3, 5|exists 1, 4]; (split; [cbn; auto|lra]).
  - rewrite H. intros [(c & d & [E|[E|[]]] & Ht) _]; injection E as <- <-; lra.
Qed.

(* C23. For every number of planes, with the plane functions of the arc and their exact crossings
   (resolved: at least 1e-6 apart and from the ends): the reported intervals are sorted and disjoint,
   the arc is inside every plane at each of their parameters, and every parameter of (0,1) at which the
   arc is strictly inside every plane is in the interior of one of them. *)
Theorem clip_arc_exact : forall planes : list ((R -> R) * list R),
  (forall f cr, In (f, cr) planes -> exact_crossings f cr) ->
  sorted_disjoint (clip_arc planes) /\
  (forall t, covers (clip_arc planes) t -> 0 <= t <= 1 /\ forall f cr, In (f, cr) planes -> 0 <= f t) /\
  (forall t, 0 < t < 1 -> (forall f cr, In (f, cr) planes -> 0 < f t) -> covers_open (clip_arc planes) t).
Proof.
  intros planes H. unfold clip_arc.
  assert (S1 : sorted_disjoint [(0, 1)]) by (cbn; split; [lra|split; [intros ? ? []|exact I]]).
  destruct (clip_arc_loop_spec planes [(0, 1)] H S1) as (A & B & C). split; [exact A|]. split.
  - intros t Ht. destruct (B t Ht) as ((x & y & [E|[]] & Hxy) & G). injection E as <- <-. auto.
  - intros t Ht G. apply C; auto. exists 0, 1. split; [left; reflexivity|lra].
Qed.
Print Assumptions clip_arc_exact.

Example clip_arc_example :
  let f := (fun t => t - 1 / 2) in
  exact_crossings f [1 / 2] /\ covers_open (clip_arc [(f, [1 / 2])]) (3 / 4) /\ ~ covers (clip_arc [(f, [1 / 2])]) (1 / 4).
Proof.
  intros f.
  assert (X : exact_crossings f [1 / 2]).
  { split; [unfold f; intros x; reg|]. right. split; [|split; [|exact I]].
    - intros t Ht. unfold f. cbn. split; [left; lra|intros [<-|[]]; lra].
    - intros t [<-|[]]. unfold eps. lra. }
  destruct (clip_arc_exact [(f, [1 / 2])]) as (_ & B & C).
  { intros g cr [E|[]]. injection E as <- <-. exact X. }
  split; [exact X|]. split.
  - apply C; [lra|]. intros g cr [E|[]]. injection E as <- <-. unfold f. lra.
  - intros H. destruct (B _ H) as [_ G]. specialize (G f [1 / 2] (or_introl eq_refl)). unfold f in G. lra.
Qed.
