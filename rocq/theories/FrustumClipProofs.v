From Verif Require Import Vec3 FrustumModel FrustumSpec.

(** Walk along the edges *)
Section Walk.
Variable g : vertex -> vertex -> list vertex.
Fixpoint walk (a : vertex) (l : list vertex) : list vertex :=
  match l with [] => [] | b :: r => g a b ++ walk b r end.

Lemma walk_index (p0 : vertex) : forall suf pre a,
  flat_map (fun i => g (nth i (pre ++ a :: suf) p0)
                       (nth ((i + 1) mod List.length (pre ++ a :: suf)) (pre ++ a :: suf) p0))
           (seq (List.length pre) (S (List.length suf))) = walk a (suf ++ [nth 0 (pre ++ a :: suf) p0]).
Proof.
  induction suf as [|b suf IH]; intros pre a.
  - cbn [seq flat_map app walk List.length]. rewrite app_nil_r.
    rewrite app_length. cbn [List.length]. rewrite Nat.mod_same by lia.
    rewrite app_nth2 by lia. rewrite Nat.sub_diag. cbn [nth]. rewrite app_nil_r. reflexivity.
  - cbn [List.length]. rewrite <- cons_seq. cbn [flat_map app walk].
    f_equal.
    + rewrite app_nth2 by lia. rewrite Nat.sub_diag. cbn [nth].
      rewrite app_length. cbn [List.length]. rewrite Nat.mod_small by lia.
      rewrite app_nth2 by lia. replace (List.length pre + 1 - List.length pre)%nat with 1%nat by lia. reflexivity.
    + specialize (IH (pre ++ [a]) b). rewrite <- !app_assoc in IH. cbn [app] in IH.
      replace (List.length (pre ++ [a])) with (S (List.length pre)) in IH by (rewrite app_length; cbn [List.length]; lia). exact IH.
Qed.
End Walk.

Lemma clip_polygon_walk n p0 l : clip_polygon n (p0 :: l) = walk (edge_out n) p0 (l ++ [p0]).
Proof. exact (walk_index (edge_out n) p0 l [] p0). Qed.

(** One edge *)
Notation dist n v := (dot n (v_pos v)).

Lemma dist_lerp n a b t : dist n (lerp_vertex a b t) = dist n a + t * (dist n b - dist n a).
Proof. unfold lerp_vertex; cbn [v_pos]. rewrite dot_add, dot_scale, dot_sub. reflexivity. Qed.

Inductive edge_case (n : vec3) (a b : vertex) : list vertex -> Prop :=
| EC_in : 0 <= dist n a -> 0 <= dist n b -> edge_case n a b [b]
| EC_leave t : 0 <= dist n a -> dist n b < 0 -> 0 <= t <= 1 -> dist n (lerp_vertex a b t) = 0 -> edge_case n a b [lerp_vertex a b t]
| EC_enter t : dist n a < 0 -> 0 <= dist n b -> 0 <= t <= 1 -> dist n (lerp_vertex a b t) = 0 -> edge_case n a b [lerp_vertex a b t; b]
| EC_out : dist n a < 0 -> dist n b < 0 -> edge_case n a b [].

Lemma ratio_leave x y : 0 <= x -> y < 0 -> 0 <= x / (x - y) <= 1 /\ x + x / (x - y) * (y - x) = 0.
Proof.
  intros Hx Hy. assert (H : 0 < x - y) by lra. split.
  - split; [apply Rmult_le_pos; [lra|left; apply Rinv_0_lt_compat; lra]|].
    apply Rmult_le_reg_r with (x - y); [lra|]. unfold Rdiv. rewrite Rmult_assoc, Rinv_l; lra.
  - field. lra.
Qed.
Lemma ratio_enter x y : x < 0 -> 0 <= y -> 0 <= x / (x - y) <= 1 /\ x + x / (x - y) * (y - x) = 0.
Proof.
  intros Hx Hy. assert (H : x - y < 0) by lra.
  replace (x / (x - y)) with ((- x) / (y - x)) by (field; lra). split.
  - split; [apply Rmult_le_pos; [lra|left; apply Rinv_0_lt_compat; lra]|].
    apply Rmult_le_reg_r with (y - x); [lra|]. unfold Rdiv. rewrite Rmult_assoc, Rinv_l; lra.
  - field. lra.
Qed.

Lemma edge_spec n a b : edge_case n a b (edge_out n a b).
Proof.
  unfold edge_out. destruct (Rleb 0 (dist n a)) eqn:Ea; destruct (Rleb 0 (dist n b)) eqn:Eb; cbn [andb negb]; rb.
  - apply EC_in; assumption.
  - destruct (ratio_leave _ _ Ea Eb). apply EC_leave; auto. rewrite dist_lerp. assumption.
  - destruct (ratio_enter _ _ Ea Eb). apply EC_enter; auto. rewrite dist_lerp. assumption.
  - apply EC_out; assumption.
Qed.

(** Membership: every output vertex is inside the plane, and lies on an input edge *)
Lemma walk_in g : forall l a x, In x (walk g a l) -> exists p q, In p (a :: l) /\ In q (a :: l) /\ In x (g p q).
Proof.
  induction l as [|b r IH]; intros a x H; cbn [walk] in H; [destruct H|].
  apply in_app_or in H. destruct H as [H|H].
  - exists a, b. cbn; auto.
  - destruct (IH b x H) as (p & q & Hp & Hq & Hx). exists p, q. cbn in *. tauto.
Qed.

Lemma clip_polygon_in n P x : In x (clip_polygon n P) ->
  0 <= dist n x /\ exists p q t, In p P /\ In q P /\ 0 <= t <= 1 /\ x = lerp_vertex p q t \/
  0 <= dist n x /\ In x P.
Proof.
  destruct P as [|p0 l]; [intros []|]. rewrite clip_polygon_walk. intros H.
  destruct (walk_in _ _ _ _ H) as (p & q & Hp & Hq & Hx).
  assert (G : forall y, In y (p0 :: l ++ [p0]) -> In y (p0 :: l)).
  { intros y Hy. cbn in *. destruct Hy as [Hy|Hy]; [tauto|]. apply in_app_or in Hy. cbn in Hy. tauto. }
  apply G in Hp. apply G in Hq.
  destruct (edge_spec n p q) as [H1 H2|t H1 H2 Ht Hd|t H1 H2 Ht Hd|H1 H2].
  - destruct Hx as [<-|[]]. split; [assumption|]. exists p, q, 0. right. auto.
  - destruct Hx as [<-|[]]. split; [lra|]. exists p, q, t. left. auto.
  - destruct Hx as [<-|[<-|[]]].
    + split; [lra|]. exists p, q, t. left. auto.
    + split; [assumption|]. exists p, q, 0. right. auto.
  - destruct Hx.
Qed.

Lemma interpolates_self a b c x : In x [a; b; c] -> interpolates x a b c.
Proof.
  intros [<-|[<-|[<-|[]]]]; [exists 1, 0, 0|exists 0, 1, 0|exists 0, 0, 1]; (split; [unfold weights; lra|]);
  (split; [apply v3_eq; cbn; ring|intros; ring]).
Qed.

Lemma interpolates_lerp a b c p q t : interpolates p a b c -> interpolates q a b c -> 0 <= t <= 1 ->
  interpolates (lerp_vertex p q t) a b c.
Proof.
  intros (u & v & w & (H1 & H2 & H3 & H4) & Hp & Ha) (u' & v' & w' & (H1' & H2' & H3' & H4') & Hq & Hb) Ht.
  exists (u + t * (u' - u)), (v + t * (v' - v)), (w + t * (w' - w)).
  split; [unfold weights; repeat split; try nra|].
  split.
  - unfold lerp_vertex; cbn [v_pos]. rewrite Hp, Hq. apply v3_eq; cbn; ring.
  - intros k. unfold lerp_vertex; cbn [v_attr]. rewrite Ha, Hb. ring.
Qed.

Definition all_interp (a b c : vertex) (P : list vertex) := forall x, In x P -> interpolates x a b c.

Lemma clip_planes_in a b c : forall normals P, all_interp a b c P ->
  forall x, In x (clip_planes normals P) ->
    interpolates x a b c /\
    (forall m, (forall p, In p P -> 0 <= dist m p) -> 0 <= dist m x) /\ inside_all normals (v_pos x).
Proof.
  induction normals as [|n r IH]; intros P HP x Hx.
  - cbn in Hx. split; [auto|]. split; [auto|]. intros m [].
  - cbn [clip_planes] in Hx. set (P' := clip_polygon n P) in *.
    assert (Hx' : In x (clip_planes r P')) by (destruct P'; [destruct Hx|exact Hx]).
    assert (HP' : forall y, In y P' -> 0 <= dist n y /\ interpolates y a b c /\
       forall m, (forall p, In p P -> 0 <= dist m p) -> 0 <= dist m y).
    { intros y Hy. destruct (clip_polygon_in _ _ _ Hy) as (Hd & p & q & t & [(Hp & Hq & Ht & ->)|(Hd' & Hy')]).
      - split; [exact Hd|]. split; [apply interpolates_lerp; auto|]. intros m Hm. rewrite dist_lerp.
        pose proof (Hm p Hp). pose proof (Hm q Hq). nra.
      - auto. }
    destruct (IH P' (fun y Hy => proj1 (proj2 (HP' y Hy))) x Hx') as (H1 & H2 & H3).
    split; [exact H1|]. split.
    + intros m Hm. apply H2. intros y Hy. destruct (HP' y Hy) as (_ & _ & G). apply G, Hm.
    + intros m [<-|Hm]; [|apply H3, Hm]. apply H2. intros y Hy. exact (proj1 (HP' y Hy)).
Qed.

(** Sizes: a polygon with at least three vertices is clipped to none or at least three *)
Lemma walk_all_out n : forall l a, (forall x, In x (a :: l) -> dist n x < 0) -> walk (edge_out n) a l = [].
Proof.
  induction l as [|b r IH]; intros a H; cbn [walk]; [reflexivity|].
  rewrite IH by (intros x Hx; apply H; right; exact Hx).
  pose proof (H a ltac:(cbn; auto)) as Ga. pose proof (H b ltac:(cbn; auto)) as Gb.
  destruct (edge_spec n a b) as [H1 H2|t H1 H2 Ht Hd|t H1 H2 Ht Hd|H1 H2]; try lra. reflexivity.
Qed.
Lemma walk_all_in n : forall l a, (forall x, In x (a :: l) -> 0 <= dist n x) -> walk (edge_out n) a l = l.
Proof.
  induction l as [|b r IH]; intros a H; cbn [walk]; [reflexivity|].
  rewrite IH by (intros x Hx; apply H; right; exact Hx).
  pose proof (H a ltac:(cbn; auto)) as Ga. pose proof (H b ltac:(cbn; auto)) as Gb.
  destruct (edge_spec n a b) as [H1 H2|t H1 H2 Ht Hd|t H1 H2 Ht Hd|H1 H2]; try lra. reflexivity.
Qed.

Definition inn (n : vec3) (v : vertex) : bool := Rleb 0 (dist n v).
Definition b2n (b : bool) : nat := if b then 1%nat else 0%nat.
(* number of sign changes along a path *)
Fixpoint changes (n : vec3) (a : vertex) (l : list vertex) : nat :=
  match l with [] => 0%nat | b :: r => (b2n (xorb (inn n a) (inn n b)) + changes n b r)%nat end.
Fixpoint ins (n : vec3) (l : list vertex) : nat :=
  match l with [] => 0%nat | b :: r => (b2n (inn n b) + ins n r)%nat end.

Lemma walk_length n : forall l a, List.length (walk (edge_out n) a l) = (ins n l + changes n a l)%nat.
Proof.
  induction l as [|b r IH]; intros a; cbn [walk ins changes]; [reflexivity|].
  rewrite app_length, IH.
  assert (E : List.length (edge_out n a b) = (b2n (inn n b) + b2n (xorb (inn n a) (inn n b)))%nat).
  { unfold inn, edge_out. destruct (Rleb 0 (dist n a)), (Rleb 0 (dist n b)); reflexivity. }
  rewrite E. lia.
Qed.

Lemma changes_parity n : forall l a z, Nat.odd (changes n a (l ++ [z])) = xorb (inn n a) (inn n z).
Proof.
  induction l as [|b r IH]; intros a z; cbn [app changes].
  - destruct (xorb (inn n a) (inn n z)); reflexivity.
  - rewrite Nat.odd_add, IH. destruct (inn n a), (inn n b), (inn n z); reflexivity.
Qed.
Lemma changes_zero n : forall l a, changes n a l = 0%nat -> forall x, In x l -> inn n x = inn n a.
Proof.
  induction l as [|b r IH]; intros a H x Hx; [destruct Hx|]. cbn [changes] in H.
  assert (E : inn n b = inn n a) by (destruct (inn n a), (inn n b); cbn in H; try lia; reflexivity).
  destruct Hx as [<-|Hx]; [exact E|]. rewrite (IH b ltac:(lia) x Hx). exact E.
Qed.
Lemma ins_pos n : forall l x, In x l -> inn n x = true -> (1 <= ins n l)%nat.
Proof.
  induction l as [|b r IH]; intros x Hx E; [destruct Hx|]. cbn [ins]. destruct Hx as [<-|Hx]; [rewrite E; cbn; lia|].
  specialize (IH x Hx E). lia.
Qed.
Lemma ins_all n : forall l, (forall x, In x l -> inn n x = true) -> ins n l = List.length l.
Proof. induction l as [|b r IH]; intros H; cbn [ins List.length]; [reflexivity|]. rewrite (H b (or_introl eq_refl)), IH by (intros x Hx; apply H; right; exact Hx). reflexivity. Qed.
Lemma ins_none n : forall l, (forall x, In x l -> inn n x = false) -> ins n l = 0%nat.
Proof. induction l as [|b r IH]; intros H; cbn [ins]; [reflexivity|]. rewrite (H b (or_introl eq_refl)), IH by (intros x Hx; apply H; right; exact Hx). reflexivity. Qed.

Lemma clip_polygon_size n P : (3 <= List.length P)%nat -> List.length (clip_polygon n P) = 0%nat \/ (3 <= List.length (clip_polygon n P))%nat.
Proof.
  intros H. destruct P as [|p0 l]; [cbn in H; lia|]. cbn [List.length] in H.
  rewrite clip_polygon_walk, walk_length.
  pose proof (changes_parity n l p0 p0) as Hpar. rewrite xorb_nilpotent in Hpar.
  set (c := changes n p0 (l ++ [p0])) in *.
  destruct (Nat.eq_dec c 0) as [Hc|Hc].
  - pose proof (changes_zero n _ _ Hc) as Hz. rewrite Hc.
    destruct (inn n p0) eqn:E0.
    + right. rewrite ins_all by exact Hz. rewrite app_length. cbn [List.length]. lia.
    + left. rewrite ins_none by exact Hz. reflexivity.
  - right. assert (2 <= c)%nat.
    { destruct c as [|[|c']]; [congruence| |lia]. cbn in Hpar. discriminate. }
    enough (1 <= ins n (l ++ [p0]))%nat by lia.
    (* some vertex is inside, otherwise nothing changes *)
    destruct (ins n (l ++ [p0])) eqn:Ei; [|lia]. exfalso. apply Hc. unfold c.
    assert (Ho : forall x, In x (l ++ [p0]) -> inn n x = false).
    { intros x Hx. destruct (inn n x) eqn:E; [|reflexivity]. pose proof (ins_pos n _ x Hx E). lia. }
    assert (Hp : inn n p0 = false) by (apply Ho, in_or_app; right; left; reflexivity).
    clear -Ho Hp. revert Ho Hp. generalize (l ++ [p0]) as m. generalize p0 as a. intros a m. revert a.
    induction m as [|b m IH]; intros a Ho Hp; cbn [changes]; [reflexivity|].
    rewrite Hp, (Ho b (or_introl eq_refl)). cbn. apply IH; [intros x Hx; apply Ho; right; exact Hx|apply Ho; left; reflexivity].
Qed.

Lemma clip_planes_size : forall normals P, (3 <= List.length P)%nat ->
  List.length (clip_planes normals P) = 0%nat \/ (3 <= List.length (clip_planes normals P))%nat.
Proof.
  induction normals as [|n r IH]; intros P H; cbn [clip_planes]; [right; exact H|].
  destruct (clip_polygon_size n P H) as [E|E]; destruct (clip_polygon n P) as [|q qs] eqn:Eq.
  - left; reflexivity.
  - cbn in E; lia.
  - cbn in E; lia.
  - apply IH. exact E.
Qed.

Lemma fan_in P a b c : In (a, b, c) (fan P) -> In a P /\ In b P /\ In c P.
Proof.
  destruct P as [|p0 l]; [intros []|]. unfold fan. intros H. apply in_map_iff in H. destruct H as (i & E & Hi).
  apply in_seq in Hi. apply pair_equal_spec in E. destruct E as [E Ec].
  apply pair_equal_spec in E. destruct E as [Ea Eb]. rewrite <- Ea, <- Eb, <- Ec.
  split; [left; reflexivity|]. split; apply nth_In; cbn [List.length] in *; lia.
Qed.
