(* Proofs about tiled rendering. *)
From Verif Require Import Vec3 TilesModel TilesSpec.
From Coq Require Import Permutation.
Open Scope Z_scope.

(** Ranges *)
Lemma zrange_in : forall a b x, In x (zrange a b) <-> a <= x < b.
Proof.
  intros. unfold zrange. rewrite in_map_iff. split.
  - intros (k & <- & H). apply in_seq in H. lia.
  - intros H. exists (Z.to_nat (x - a)). split; [lia|]. apply in_seq. lia.
Qed.
Lemma zrange_nodup : forall a b, NoDup (zrange a b).
Proof.
  intros. unfold zrange. apply FinFun.Injective_map_NoDup; [|apply seq_NoDup]. intros x y. lia.
Qed.

Lemma NoDup_flat_map : forall {A B} (f : A -> list B) (l : list A),
  NoDup l -> (forall a, In a l -> NoDup (f a)) ->
  (forall a b x, In a l -> In b l -> In x (f a) -> In x (f b) -> a = b) -> NoDup (flat_map f l).
Proof.
  intros A B f l. induction l as [|a l IH]; intros H1 H2 H3; cbn; [constructor|].
  inversion H1; subst.
  assert (ND : NoDup (flat_map f l)).
  { apply IH; auto. intros; apply H2; right; auto. intros; eapply H3; eauto; right; auto. }
  assert (Hd : forall x, In x (f a) -> ~ In x (flat_map f l)).
  { intros x Hx Hf. apply in_flat_map in Hf as (b & Hb & Hxb).
    assert (a = b) by (eapply H3; eauto; [left|right]; auto). subst. contradiction. }
  assert (Ha : NoDup (f a)) by (apply H2; left; auto).
  clear - ND Hd Ha. revert Hd. induction Ha as [|x xs Hx Hxs IH]; intros Hd; cbn; auto.
  constructor.
  - intros Hin. apply in_app_or in Hin as [|]; [contradiction|]. eapply Hd; eauto. left; auto.
  - apply IH. intros; apply Hd; right; auto.
Qed.

(** C24: tiles *)
Lemma tiles_spec : forall ts n, 0 < ts -> 0 <= n -> forall x, 0 <= x < n -> 0 <= x / ts < tiles ts n.
Proof. intros ts n Ht Hn x Hx. unfold tiles. split; [apply Z.div_pos; lia|]. apply Z.div_lt_upper_bound; auto.
  assert (n + ts - 1 < ts * ((n + ts - 1) / ts) + ts) by (pose proof (Z.mod_pos_bound (n + ts - 1) ts); pose proof (Z.div_mod (n + ts - 1) ts); lia).
  lia.
Qed.
Lemma tiles_pos : forall ts n, 0 < ts -> 0 < n -> 0 < tiles ts n.
Proof. intros ts n Ht Hn. pose proof (tiles_spec ts n Ht ltac:(lia) 0 ltac:(lia)). lia. Qed.
Lemma tiles_nonneg : forall ts n, 0 < ts -> 0 <= n -> 0 <= tiles ts n.
Proof. intros. unfold tiles. apply Z.div_pos; lia. Qed.

Lemma tile_pixels_in : forall ts w h idx x y, In (x, y) (tile_pixels ts w h idx) <->
  (idx mod tiles ts w * ts <= x < Z.min (idx mod tiles ts w * ts + ts) w) /\
  (idx / tiles ts w * ts <= y < Z.min (idx / tiles ts w * ts + ts) h).
Proof.
  intros. unfold tile_pixels. rewrite in_flat_map. split.
  - intros (y' & Hy & Hx). apply in_map_iff in Hx as (x' & E & Hx). injection E as -> ->.
    apply zrange_in in Hx. apply zrange_in in Hy. auto.
  - intros [Hx Hy]. exists y. split; [apply zrange_in; auto|]. apply in_map_iff. exists x. split; auto. apply zrange_in; auto.
Qed.
Lemma tile_pixels_nodup : forall ts w h idx, NoDup (tile_pixels ts w h idx).
Proof.
  intros. unfold tile_pixels. apply NoDup_flat_map.
  - apply zrange_nodup.
  - intros. apply FinFun.Injective_map_NoDup; [|apply zrange_nodup]. intros p q E. congruence.
  - intros a b [x y] _ _ Ha Hb. apply in_map_iff in Ha as (? & E1 & _). apply in_map_iff in Hb as (? & E2 & _). congruence.
Qed.

Lemma tile_unique : forall ts w h idx x y, 0 < ts -> 0 < w -> 0 <= h -> 0 <= idx ->
  In (x, y) (tile_pixels ts w h idx) -> idx = y / ts * tiles ts w + x / ts.
Proof.
  intros ts w h idx x y Ht Hw Hh Hi H. apply tile_pixels_in in H as [Hx Hy].
  pose proof (tiles_pos ts w Ht Hw) as Hp.
  assert (Ex : x / ts = idx mod tiles ts w).
  { symmetry. apply (Z.div_unique x ts _ (x - idx mod tiles ts w * ts)); lia. }
  assert (Ey : y / ts = idx / tiles ts w).
  { symmetry. apply (Z.div_unique y ts _ (y - idx / tiles ts w * ts)); lia. }
  rewrite Ex, Ey. pose proof (Z.div_mod idx (tiles ts w)). lia.
Qed.

Lemma tile_cover : forall ts w h x y, 0 < ts -> 0 <= x < w -> 0 <= y < h ->
  let idx := y / ts * tiles ts w + x / ts in
  0 <= idx < num_tiles ts w h /\ In (x, y) (tile_pixels ts w h idx).
Proof.
  intros ts w h x y Ht Hx Hy idx.
  pose proof (tiles_spec ts w Ht ltac:(lia) x Hx) as Tx. pose proof (tiles_spec ts h Ht ltac:(lia) y Hy) as Ty.
  assert (Em : idx mod tiles ts w = x / ts) by (unfold idx; rewrite Z.add_comm, Z.mod_add by lia; apply Z.mod_small; lia).
  assert (Ed : idx / tiles ts w = y / ts) by (unfold idx; rewrite Z.add_comm, Z.div_add by lia; rewrite Z.div_small by lia; lia).
  split.
  - unfold idx, num_tiles. split; [apply Z.add_nonneg_nonneg; [apply Z.mul_nonneg_nonneg|]; lia|].
    apply Z.lt_le_trans with ((y / ts + 1) * tiles ts w); [lia|].
    rewrite (Z.mul_comm (tiles ts w)). apply Z.mul_le_mono_nonneg_r; lia.
  - apply tile_pixels_in. rewrite Em, Ed.
    pose proof (Z.div_mod x ts ltac:(lia)). pose proof (Z.mod_pos_bound x ts Ht).
    pose proof (Z.div_mod y ts ltac:(lia)). pose proof (Z.mod_pos_bound y ts Ht). lia.
Qed.

Lemma path_partition : forall w h order, 0 <= w -> 0 <= h -> Permutation order (zrange 0 (num_tiles 16 w h)) ->
  NoDup (path_visits w h order) /\ forall p, In p (path_visits w h order) <-> inside w h p.
Proof.
  intros w h order Hw Hh HP.
  assert (Hin : forall i, In i order <-> 0 <= i < num_tiles 16 w h).
  { intros i. rewrite <- zrange_in. split; apply Permutation_in; auto. symmetry; auto. }
  assert (Hpos : forall i, In i order -> 0 < w).
  { intros i Hi. apply Hin in Hi. destruct (Z.eq_dec w 0) as [->|]; [|lia]. unfold num_tiles in Hi.
    change (tiles 16 0) with 0 in Hi. lia. }
  split.
  - unfold path_visits. apply NoDup_flat_map.
    + eapply Permutation_NoDup; [symmetry; exact HP | apply zrange_nodup].
    + intros. apply tile_pixels_nodup.
    + intros a b [x y] Ha Hb Hpa Hpb. pose proof (Hpos a Ha) as Hw0.
      assert (0 <= a) by (apply Hin in Ha; lia). assert (0 <= b) by (apply Hin in Hb; lia).
      apply (tile_unique 16 w h a x y) in Hpa; try lia. apply (tile_unique 16 w h b x y) in Hpb; try lia.
  - intros [x y]. unfold path_visits. rewrite in_flat_map. unfold inside. cbn [fst snd]. split.
    + intros (i & Hi & H). pose proof (Hpos i Hi). assert (0 <= i) by (apply Hin in Hi; lia).
      apply tile_pixels_in in H. pose proof (tiles_pos 16 w ltac:(lia) ltac:(lia)).
      assert (0 <= i mod tiles 16 w) by (apply Z.mod_pos_bound; lia). assert (0 <= i / tiles 16 w) by (apply Z.div_pos; lia). lia.
    + intros [Hx Hy]. destruct (tile_cover 16 w h x y ltac:(lia) Hx Hy) as [A B]. eexists. split; [|exact B]. apply Hin; auto.
Qed.

(** Sums *)
Lemma sumR_app : forall a b, sumR (a ++ b) = (sumR a + sumR b)%R.
Proof. induction a as [|x a IH]; intros; cbn; [|rewrite IH]; ring. Qed.
Lemma sumR_zero : forall {A} (f : A -> R) l, (forall a, In a l -> f a = 0%R) -> sumR (map f l) = 0%R.
Proof. induction l as [|x l IH]; intros H; cbn; auto. rewrite IH, (H x); [ring|left;auto|intros; apply H; right; auto]. Qed.
Lemma sumR_ext : forall {A} (f g : A -> R) l, (forall a, In a l -> f a = g a) -> sumR (map f l) = sumR (map g l).
Proof. intros. f_equal. apply map_ext_in. auto. Qed.
Lemma sumR_plus : forall {A} (f g : A -> R) l, sumR (map (fun a => f a + g a)%R l) = (sumR (map f l) + sumR (map g l))%R.
Proof. induction l as [|x l IH]; cbn; [|rewrite IH]; ring. Qed.
Lemma sumR_one : forall (f : Z -> R) l x, NoDup l ->
  sumR (map (fun k => if x =? k then f k else 0%R) l) = if in_dec Z.eq_dec x l then f x else 0%R.
Proof.
  intros f l x. induction l as [|k l IH]; intros ND; [reflexivity|]. inversion ND; subst.
  cbn [map sumR]. rewrite IH by auto.
  destruct (in_dec Z.eq_dec x (k :: l)) as [I|I]; destruct (in_dec Z.eq_dec x l) as [J|J]; destruct (Z.eqb_spec x k); subst; try contradiction; try ring;
   exfalso; cbn in I; intuition.
Qed.

Lemma sum_by_bin : forall {A} (c : A -> R) (bin : A -> Z) items n, (forall it, In it items -> 0 <= bin it < n) ->
  sumR (map (fun idx => sumR (map c (filter (fun it => bin it =? idx) items))) (zrange 0 n)) = sumR (map c items).
Proof.
  intros A c bin items n. induction items as [|it items IH]; intros H.
  - cbn. apply sumR_zero. reflexivity.
  - cbn [map sumR]. rewrite <- IH by (intros; apply H; right; auto).
    transitivity (sumR (map (fun idx => ((if bin it =? idx then c it else 0) + sumR (map c (filter (fun it => bin it =? idx) items)))%R) (zrange 0 n))).
    + apply sumR_ext. intros idx _. cbn [filter]. destruct (bin it =? idx); cbn; ring.
    + rewrite sumR_plus. f_equal. rewrite (sumR_one (fun _ => c it)) by apply zrange_nodup.
      destruct (in_dec Z.eq_dec (bin it) (zrange 0 n)) as [I|I]; auto. exfalso. apply I. apply zrange_in. apply H. left; auto.
Qed.

(** Writes *)
Definition wsum (ws : list (Z * Z * R)) (x y : Z) : R :=
  sumR (map (fun p => if (x =? fst (fst p)) && (y =? snd (fst p)) then snd p else 0%R) ws).
Definition wbound (lw lh : Z) (ws : list (Z * Z * R)) : Prop :=
  forall x y v, In (x, y, v) ws -> 0 <= x < lw /\ 0 <= y < lh.

Lemma wsum_app : forall a b x y, wsum (a ++ b) x y = (wsum a x y + wsum b x y)%R.
Proof. intros. unfold wsum. rewrite map_app, sumR_app. auto. Qed.
Lemma wsum_concat : forall l x y, wsum (List.concat l) x y = sumR (map (fun ws => wsum ws x y) l).
Proof. induction l as [|a l IH]; intros; cbn [List.concat map sumR]; [reflexivity|]. rewrite wsum_app, IH. auto. Qed.
Lemma wbound_concat : forall lw lh l, (forall ws, In ws l -> wbound lw lh ws) -> wbound lw lh (List.concat l).
Proof. intros lw lh l H x y v Hin. apply in_concat in Hin as (ws & A & B). eapply H; eauto. Qed.

Lemma buf_adds_ok : forall ws b, wbound (fst (bsize b)) (snd (bsize b)) ws ->
  exists b', buf_adds b ws = Some b' /\ borg b' = borg b /\ bsize b' = bsize b /\
    forall x y, bdata b' x y = (bdata b x y + wsum ws x y)%R.
Proof.
  induction ws as [|[[x y] v] ws IH]; intros b H.
  - exists b. cbn. repeat split; auto. intros. unfold wsum; cbn; ring.
  - cbn [buf_adds]. unfold buf_add. destruct (H x y v) as [Hx Hy]; [left; auto|].
    replace ((0 <=? x) && (x <? fst (bsize b)) && (0 <=? y) && (y <? snd (bsize b))) with true by (symmetry; lia).
    destruct (IH {| borg := borg b; bsize := bsize b;
            bdata := fun x' y' => if (x' =? x) && (y' =? y) then (bdata b x' y' + v)%R else bdata b x' y' |}) as (b' & E & A & B & C).
    { cbn. intros x' y' v' Hin. eapply H. right. exact Hin. }
    exists b'. cbn in *. repeat split; auto. intros x' y'. rewrite C. unfold wsum. cbn [map sumR fst snd].
    destruct ((x' =? x) && (y' =? y)); ring.
Qed.

Lemma sequence_some : forall {A} (l : list A), sequence (map Some l) = Some l.
Proof. induction l as [|a l IH]; cbn; auto. rewrite IH. auto. Qed.
Lemma sequence_map : forall {A B} (f : A -> option B) (g : A -> B) l, (forall a, In a l -> f a = Some (g a)) ->
  sequence (map f l) = Some (map g l).
Proof.
  intros A B f g l H. rewrite <- (sequence_some (map g l)), map_map. f_equal. apply map_ext_in. auto.
Qed.

(* grids of writes *)
Definition grid (xs ys : list Z) (F : Z -> Z -> Z * Z * R) : list (Z * Z * R) :=
  flat_map (fun ky => map (fun kx => F kx ky) xs) ys.
Lemma sequence_grid : forall xs ys (G : Z -> Z -> option (Z * Z * R)) F,
  (forall kx ky, In kx xs -> In ky ys -> G kx ky = Some (F kx ky)) ->
  sequence (flat_map (fun ky => map (fun kx => G kx ky) xs) ys) = Some (grid xs ys F).
Proof.
  intros xs ys G F H. rewrite <- (sequence_some (grid xs ys F)). f_equal. unfold grid.
  induction ys as [|ky ys IH]; cbn; auto. rewrite map_app. f_equal.
  - rewrite map_map. apply map_ext_in. intros kx Hx. apply H; auto. left; auto.
  - apply IH. intros; apply H; auto. right; auto.
Qed.
Lemma wsum_grid : forall a b c d ox oy v x y,
  wsum (grid (zrange a b) (zrange c d) (fun kx ky => (kx + ox, ky + oy, v kx ky))) x y =
  if (a <=? x - ox) && (x - ox <? b) && (c <=? y - oy) && (y - oy <? d) then v (x - ox) (y - oy) else 0%R.
Proof.
  intros. 
  assert (E : forall xs ys, wsum (grid xs ys (fun kx ky => (kx + ox, ky + oy, v kx ky))) x y =
     sumR (map (fun ky => if y - oy =? ky then sumR (map (fun kx => if x - ox =? kx then v kx ky else 0%R) xs) else 0%R) ys)).
  { intros xs ys. unfold grid. induction ys as [|ky ys IH]; [reflexivity|].
    cbn [flat_map]. rewrite wsum_app, IH. cbn [map sumR]. f_equal.
    unfold wsum. rewrite map_map. cbn [fst snd]. destruct (Z.eqb_spec (y - oy) ky).
    - apply sumR_ext. intros kx _. destruct (Z.eqb_spec (x - ox) kx); destruct (Z.eqb_spec x (kx + ox)); destruct (Z.eqb_spec y (ky + oy)); cbn; auto; lia.
    - apply sumR_zero. intros kx _. destruct (Z.eqb_spec y (ky + oy)); [lia|]. rewrite andb_false_r. auto. }
  rewrite E. rewrite (sumR_one (fun ky => sumR (map (fun kx => if x - ox =? kx then v kx ky else 0%R) (zrange a b)))) by apply zrange_nodup.
  rewrite (sumR_one (fun kx => v kx (y - oy))) by apply zrange_nodup.
  destruct (in_dec Z.eq_dec (y - oy) (zrange c d)) as [I|I]; rewrite zrange_in in I;
  destruct (in_dec Z.eq_dec (x - ox) (zrange a b)) as [J|J]; rewrite zrange_in in J;
  destruct ((a <=? x - ox) && (x - ox <? b) && (c <=? y - oy) && (y - oy <? d)) eqn:Eb; auto; lia.
Qed.
Lemma grid_in : forall xs ys F p, In p (grid xs ys F) <-> exists kx ky, In kx xs /\ In ky ys /\ p = F kx ky.
Proof.
  intros. unfold grid. rewrite in_flat_map. split.
  - intros (ky & Hy & Hp). apply in_map_iff in Hp as (kx & E & Hx). exists kx, ky. auto.
  - intros (kx & ky & Hx & Hy & ->). exists ky. split; auto. apply in_map_iff. exists kx. auto.
Qed.

(** The whole pipeline, given what each sample writes in its own tile *)
Lemma bin_range : forall w h it, 0 < w -> 0 < h -> 0 <= bin_of w h it < num_tiles TILE w h.
Proof.
  intros w h it Hw Hh. unfold bin_of, num_tiles. unfold TILE at 1 2 3 4 5 6 7 8.
  pose proof (tiles_pos 64 w ltac:(lia) Hw) as A. pose proof (tiles_pos 64 h ltac:(lia) Hh) as B.
  unfold TILE in *.
  assert (0 <= clampZ (fx it / 64) 0 (tiles 64 w - 1) <= tiles 64 w - 1) as C
    by (unfold clampZ; destruct (fx it / 64 <? 0) eqn:?; [lia|]; destruct (tiles 64 w - 1 <? fx it / 64) eqn:?; lia).
  assert (0 <= clampZ (fy it / 64) 0 (tiles 64 h - 1) <= tiles 64 h - 1) as D
    by (unfold clampZ; destruct (fy it / 64 <? 0) eqn:?; [lia|]; destruct (tiles 64 h - 1 <? fy it / 64) eqn:?; lia).
  split; nia.
Qed.

Definition in_rect (r : Z * Z * Z * Z) (x y : Z) : bool :=
  let '(x0, y0, x1, y1) := r in (x0 <=? x) && (x <? x1) && (y0 <=? y) && (y <? y1).

Section Pipeline.
Variables w h Rs : Z.
Variable depth : option (Z -> bool).
Variable items : list pitem.
Variable W : pitem -> list (Z * Z * R).      (* what the sample writes into its tile *)
Variable c : pitem -> Z -> Z -> R.           (* what it should contribute to the image *)
Hypothesis Hw : 0 < w.
Hypothesis Hh : 0 < h.
Hypothesis HRs : 0 <= Rs.
Hypothesis HW : forall it, In it items ->
  let r := local_rect w h Rs (bin_of w h it) in
  let '(x0, y0, x1, y1) := r in
  item_writes w h Rs depth r it = Some (W it) /\ wbound (x1 - x0) (y1 - y0) (W it) /\
  forall x y, 0 <= x < w -> 0 <= y < h ->
    (if in_rect r x y then wsum (W it) (x - x0) (y - y0) else 0%R) = c it x y.

Definition tile_buf (idx : Z) (b : option buffer) : Prop :=
  match b with
  | None => bin w h items idx = []
  | Some b =>
      let '(x0, y0, x1, y1) := local_rect w h Rs idx in
      borg b = (x0, y0) /\ bsize b = (x1 - x0, y1 - y0) /\
      forall x y, 0 <= x < w -> 0 <= y < h -> in_rect (local_rect w h Rs idx) x y = true ->
        bdata b (x - x0) (y - y0) = sumR (map (fun it => c it x y) (bin w h items idx))
  end.

Lemma render_tile_ok : forall idx, exists b, render_tile w h Rs depth items idx = Some b /\ tile_buf idx b.
Proof.
  intros idx. unfold render_tile.
  assert (Hb : forall it, In it (bin w h items idx) -> In it items /\ bin_of w h it = idx).
  { intros it Hi. unfold bin in Hi. apply filter_In in Hi as [A B]. split; auto. apply Z.eqb_eq; auto. }
  destruct (bin w h items idx) as [|i0 l] eqn:Eb; [exists None; split; auto|].
  rewrite <- Eb. rewrite <- Eb in Hb.
  destruct (local_rect w h Rs idx) as [[[x0 y0] x1] y1] eqn:Er.
  rewrite (sequence_map _ W).
  2:{ intros it Hi. destruct (Hb it Hi) as [A B]. specialize (HW it A). rewrite B, Er in HW. cbn in HW. tauto. }
  destruct (buf_adds_ok (List.concat (map W (bin w h items idx)))
    {| borg := (x0, y0); bsize := (x1 - x0, y1 - y0); bdata := fun _ _ => 0%R |}) as (b & E & A & B & C).
  { cbn. apply wbound_concat. intros ws Hws. apply in_map_iff in Hws as (it & <- & Hi).
    destruct (Hb it Hi) as [Ha Hbi]. specialize (HW it Ha). rewrite Hbi, Er in HW. cbn in HW. tauto. }
  rewrite E. exists (Some b). split; auto. cbn [tile_buf]. rewrite Er. repeat split; auto.
  intros x y Hx Hy Hr. rewrite C. cbn [bdata]. rewrite wsum_concat, map_map.
  rewrite Rplus_0_l. apply sumR_ext. intros it Hi. destruct (Hb it Hi) as [Ha Hbi]. specialize (HW it Ha).
  rewrite Hbi, Er in HW. cbn zeta in HW. destruct HW as (_ & _ & Q). specialize (Q x y Hx Hy). rewrite Hr in Q. auto.
Qed.

Lemma in_rect_inside : forall idx x y, in_rect (local_rect w h Rs idx) x y = true -> 0 <= x < w /\ 0 <= y < h.
Proof. intros idx x y. unfold in_rect, local_rect. lia. Qed.

Lemma combine_ok : forall idx b, tile_buf idx b ->
  wbound w h (combine_writes b) /\
  forall x y, 0 <= x < w -> 0 <= y < h -> wsum (combine_writes b) x y = sumR (map (fun it => c it x y) (bin w h items idx)).
Proof.
  intros idx [b|] H; cbn [tile_buf] in H.
  - pose proof (in_rect_inside idx) as IN.
    assert (Hbin : forall it, In it (bin w h items idx) -> In it items /\ bin_of w h it = idx).
    { intros it Hi. unfold bin in Hi. apply filter_In in Hi as [A B]. split; auto. apply Z.eqb_eq; auto. }
    destruct (local_rect w h Rs idx) as [[[x0 y0] x1] y1] eqn:Er. destruct H as (A & B & C).
    unfold combine_writes. rewrite A, B.
    assert (Eg : flat_map (fun y => map (fun lx => (x0 + lx, y, bdata b lx (y - y0))) (zrange 0 (x1 - x0))) (zrange y0 (y0 + (y1 - y0)))
        = grid (zrange 0 (x1 - x0)) (zrange y0 (y0 + (y1 - y0))) (fun kx ky => (kx + x0, ky + 0, bdata b kx (ky - y0)))).
    { unfold grid. apply flat_map_ext. intros ky. apply map_ext. intros kx. f_equal; f_equal; lia. }
    rewrite Eg. split.
    + intros x y v Hin. apply grid_in in Hin as (kx & ky & Hx & Hy & E). injection E as -> -> ->.
      apply zrange_in in Hx. apply zrange_in in Hy. apply IN. unfold in_rect. lia.
    + intros x y Hx Hy. rewrite wsum_grid.
      destruct ((0 <=? x - x0) && (x - x0 <? x1 - x0) && (y0 <=? y - 0) && (y - 0 <? y0 + (y1 - y0))) eqn:Eb.
      * replace (y - 0 - y0) with (y - y0) by lia. apply C; auto. unfold in_rect. lia.
      * symmetry. apply sumR_zero. intros it Hi. destruct (Hbin it Hi) as [Ha Hbi]. specialize (HW it Ha).
        rewrite Hbi, Er in HW. cbn zeta in HW. destruct HW as (_ & _ & Q). specialize (Q x y Hx Hy).
        replace (in_rect (x0, y0, x1, y1) x y) with false in Q by (unfold in_rect; lia). auto.
  - rewrite H. cbn. split; [intros x y v []|]. intros. unfold wsum; reflexivity.
Qed.

Lemma pipeline : exists img, render_unresolved w h Rs depth items = Some img /\ bsize img = (w, h) /\
  forall x y, 0 <= x < w -> 0 <= y < h -> bdata img x y = sumR (map (fun it => c it x y) items).
Proof.
  unfold render_unresolved.
  assert (S : forall l, exists bufs, sequence (map (render_tile w h Rs depth items) l) = Some bufs /\
     wbound w h (List.concat (map combine_writes bufs)) /\
     forall x y, 0 <= x < w -> 0 <= y < h -> wsum (List.concat (map combine_writes bufs)) x y =
       sumR (map (fun idx => sumR (map (fun it => c it x y) (bin w h items idx))) l)).
  { induction l as [|idx l IH].
    - exists []. cbn. repeat split; try contradiction.
    - destruct IH as (bufs & E & A & B). destruct (render_tile_ok idx) as (b & Eb & Tb).
      destruct (combine_ok idx b Tb) as [C D].
      exists (b :: bufs). cbn [map sequence]. rewrite Eb, E. split; auto. cbn [map List.concat]. split.
      + intros x y v Hin. apply in_app_or in Hin as [Hin|Hin]; [eapply C | eapply A]; eauto.
      + intros x y Hx Hy. rewrite wsum_app, B, D by auto. reflexivity. }
  destruct (S (zrange 0 (num_tiles TILE w h))) as (bufs & E & A & B). rewrite E.
  destruct (buf_adds_ok (List.concat (map combine_writes bufs)) {| borg := (0, 0); bsize := (w, h); bdata := fun _ _ => 0%R |}) as (img & Ei & _ & Es & Ed).
  { exact A. }
  exists img. split; auto. split; auto. intros x y Hx Hy. rewrite Ed, B by auto. cbn [bdata]. rewrite Rplus_0_l.
  apply (sum_by_bin (fun it => c it x y) (bin_of w h)). intros. apply bin_range; auto.
Qed.
End Pipeline.

(** Geometry of the tile a sample is binned into *)
Lemma rect_of_bin : forall w h Rs it, 0 < w -> 0 < h ->
  let tx := clampZ (fx it / TILE) 0 (tiles TILE w - 1) in
  let ty := clampZ (fy it / TILE) 0 (tiles TILE h - 1) in
  local_rect w h Rs (bin_of w h it) =
   (Z.max 0 (tx * TILE - Rs), Z.max 0 (ty * TILE - Rs), Z.min w (tx * TILE + TILE + Rs), Z.min h (ty * TILE + TILE + Rs)).
Proof.
  intros w h Rs it Hw Hh tx ty. unfold local_rect, bin_of. fold tx ty.
  pose proof (tiles_pos TILE w ltac:(unfold TILE; lia) Hw) as A.
  assert (0 <= tx < tiles TILE w) as C.
  { unfold tx, clampZ. destruct (fx it / TILE <? 0) eqn:?; [lia|]; destruct (tiles TILE w - 1 <? fx it / TILE) eqn:?; lia. }
  rewrite (Z.add_comm (ty * _)), Z.mod_add, Z.div_add by lia. rewrite Z.mod_small, Z.div_small by lia.
  rewrite Z.add_0_l. reflexivity.
Qed.
(* the tile contains the floor of the position, or is the last one when the position is on the far edge *)
Lemma clamp_tile : forall n f, 0 < n -> 0 <= f <= n ->
  let t := clampZ (f / TILE) 0 (tiles TILE n - 1) in
  t * TILE <= f /\ (f < t * TILE + TILE \/ f = n /\ n <= t * TILE + TILE) /\ (f < n -> t = f / TILE).
Proof.
  intros n f Hn Hf t. unfold TILE in *.
  pose proof (tiles_pos 64 n ltac:(lia) Hn) as A. unfold t, clampZ, tiles in *.
  destruct (f / 64 <? 0) eqn:?; [lia|]. destruct ((n + 64 - 1) / 64 - 1 <? f / 64) eqn:?; lia.
Qed.

(* plain integer facts about one stamp axis: n image size, f floor, e effective radius, R stamp radius, [t, t+64) tile *)
Lemma axis_iff : forall n f e R t x, 0 <= e <= R -> t <= f -> (f < t + 64 \/ f = n /\ n <= t + 64) -> 0 <= x < n ->
  ((Z.max 0 (t - R) <= x /\ x < Z.min n (t + 64 + R)) /\
   (Z.max 0 (Z.max 0 (t - R) - (f - e)) <= x - f + e /\ x - f + e < Z.min (2 * e + 1) (Z.min n (t + 64 + R) - (f - e)))) <->
  Z.abs (x - f) <= e.
Proof. intros. lia. Qed.
Lemma axis_bound : forall x0 x1 f e k, Z.max 0 (x0 - (f - e)) <= k < Z.min (2 * e + 1) (x1 - (f - e)) ->
  0 <= k + (f - e - x0) < x1 - x0.
Proof. intros. lia. Qed.
Lemma kread_ok : forall Q e kx ky x0 x1 y0 y1 (k : Z -> Z -> R), 0 <= e <= Q ->
  Z.max 0 x0 <= kx < Z.min (2 * e + 1) x1 -> Z.max 0 y0 <= ky < Z.min (2 * e + 1) y1 ->
  kernel_read Q k (kx + (Q - e)) (ky + (Q - e)) = Some (k (kx + (Q - e)) (ky + (Q - e))).
Proof.
  intros. unfold kernel_read.
  assert (E : ((0 <=? kx + (Q - e)) && (kx + (Q - e) <? 2 * Q + 1) && (0 <=? ky + (Q - e)) && (ky + (Q - e) <? 2 * Q + 1))%bool = true)
    by (rewrite !andb_true_iff, !Z.leb_le, !Z.ltb_lt; lia).
  rewrite E. auto.
Qed.

(* the writes of a stamp in a rectangle *)
Definition stamp_grid (Rs : Z) (rect : Z * Z * Z * Z) (it : pitem) : list (Z * Z * R) :=
  let '(x0, y0, x1, y1) := rect in
  grid (zrange (Z.max 0 (x0 - (fx it - er it))) (Z.min (2 * er it + 1) (x1 - (fx it - er it))))
       (zrange (Z.max 0 (y0 - (fy it - er it))) (Z.min (2 * er it + 1) (y1 - (fy it - er it))))
       (fun kx ky => (kx + (fx it - er it - x0), ky + (fy it - er it - y0), (pw it * kern it (kx + (Rs - er it)) (ky + (Rs - er it)))%R)).
Lemma stamp_writes_grid : forall Rs rect it, 0 <= er it <= Rs -> stamp_writes Rs rect it = Some (stamp_grid Rs rect it).
Proof.
  intros Rs [[[x0 y0] x1] y1] it He. unfold stamp_writes, stamp_grid. apply sequence_grid.
  intros kx ky Hkx Hky. apply zrange_in in Hkx. apply zrange_in in Hky.
  erewrite kread_ok; eauto.
  assert (E1 : fx it - er it + kx - x0 = kx + (fx it - er it - x0)) by ring.
  assert (E2 : fy it - er it + ky - y0 = ky + (fy it - er it - y0)) by ring.
  rewrite E1, E2. reflexivity.
Qed.
Lemma stamp_grid_bound : forall Rs x0 y0 x1 y1 it, wbound (x1 - x0) (y1 - y0) (stamp_grid Rs (x0, y0, x1, y1) it).
Proof.
  intros Rs x0 y0 x1 y1 it x y v Hin. unfold stamp_grid in Hin. apply grid_in in Hin as (kx & ky & Hkx & Hky & E). injection E as -> -> ->.
  apply zrange_in in Hkx. apply zrange_in in Hky. split; eapply axis_bound; eauto.
Qed.
Lemma stamp_grid_sum : forall Rs x0 y0 x1 y1 it x y,
  wsum (stamp_grid Rs (x0, y0, x1, y1) it) (x - x0) (y - y0) =
  if ((Z.max 0 (x0 - (fx it - er it)) <=? x - fx it + er it) && (x - fx it + er it <? Z.min (2 * er it + 1) (x1 - (fx it - er it))) &&
      (Z.max 0 (y0 - (fy it - er it)) <=? y - fy it + er it) && (y - fy it + er it <? Z.min (2 * er it + 1) (y1 - (fy it - er it))))%bool
  then (pw it * kern it (x - fx it + Rs) (y - fy it + Rs))%R else 0%R.
Proof.
  intros. unfold stamp_grid.
  rewrite (wsum_grid _ _ _ _ _ _ (fun kx ky => (pw it * kern it (kx + (Rs - er it)) (ky + (Rs - er it)))%R)).
  replace (x - x0 - (fx it - er it - x0)) with (x - fx it + er it) by ring.
  replace (y - y0 - (fy it - er it - y0)) with (y - fy it + er it) by ring.
  replace (x - fx it + er it + (Rs - er it)) with (x - fx it + Rs) by ring.
  replace (y - fy it + er it + (Rs - er it)) with (y - fy it + Rs) by ring. reflexivity.
Qed.

Lemma stamp_writes_ok : forall w h Rs it, 0 < w -> 0 < h -> on_image w h it -> 0 <= er it <= Rs ->
  exists ws, stamp_writes Rs (local_rect w h Rs (bin_of w h it)) it = Some ws /\
   (let '(x0, y0, x1, y1) := local_rect w h Rs (bin_of w h it) in
   wbound (x1 - x0) (y1 - y0) ws /\
   forall x y, 0 <= x < w -> 0 <= y < h ->
    (if in_rect (local_rect w h Rs (bin_of w h it)) x y then wsum ws (x - x0) (y - y0) else 0%R) = stamp_at Rs it x y).
Proof.
  intros w h Rs it Hw Hh [Hx Hy] He.
  destruct (clamp_tile w (fx it) Hw Hx) as (X1 & X2 & _). destruct (clamp_tile h (fy it) Hh Hy) as (Y1 & Y2 & _).
  pose proof (rect_of_bin w h Rs it Hw Hh) as ER. cbv zeta in ER, X1, X2, Y1, Y2. rewrite ER. clear ER.
  revert X1 X2 Y1 Y2. unfold TILE.
  generalize (clampZ (fx it / 64) 0 (tiles 64 w - 1)) (clampZ (fy it / 64) 0 (tiles 64 h - 1)). intros tx ty X1 X2 Y1 Y2.
  eexists. split; [apply stamp_writes_grid; auto|]. split; [apply stamp_grid_bound|].
  intros x y Hxx Hyy. rewrite stamp_grid_sum. unfold stamp_at, in_rect.
  pose proof (axis_iff w (fx it) (er it) Rs (tx * 64) x He X1 X2 Hxx) as AX.
  pose proof (axis_iff h (fy it) (er it) Rs (ty * 64) y He Y1 Y2 Hyy) as AY.
  rewrite <- !Z.leb_le, <- !Z.ltb_lt in AX, AY.
  repeat match goal with |- context [?a <=? ?b] => let E := fresh in destruct (a <=? b) eqn:E; rewrite ?E in * end;
  repeat match goal with |- context [?a <? ?b] => let E := fresh in destruct (a <? b) eqn:E; rewrite ?E in * end;
  cbn [andb]; try reflexivity; exfalso; clear - AX AY; intuition discriminate.
Qed.

Lemma delta_writes_ok : forall w h it, 0 < w -> 0 < h ->
  exists ws, delta_writes (local_rect w h 0 (bin_of w h it)) it = Some ws /\
   (let '(x0, y0, x1, y1) := local_rect w h 0 (bin_of w h it) in
   wbound (x1 - x0) (y1 - y0) ws /\
   forall x y, 0 <= x < w -> 0 <= y < h ->
    (if in_rect (local_rect w h 0 (bin_of w h it)) x y then wsum ws (x - x0) (y - y0) else 0%R) =
    if in_rect (local_rect w h 0 (bin_of w h it)) (rx it) (ry it) then point_at it x y else 0%R).
Proof.
  intros w h it Hw Hh. destruct (local_rect w h 0 (bin_of w h it)) as [[[x0 y0] x1] y1].
  unfold delta_writes, in_rect.
  destruct ((x0 <=? rx it) && (rx it <? x1) && (y0 <=? ry it) && (ry it <? y1)) eqn:E.
  - eexists. split; [reflexivity|]. split.
    + intros x y v [Q|[]]. injection Q as <- <- <-. lia.
    + intros x y Hx Hy. unfold wsum, point_at. cbn.
      destruct ((x0 <=? x) && (x <? x1) && (y0 <=? y) && (y <? y1)) eqn:E2.
      * replace (x - x0 =? rx it - x0) with (x =? rx it) by lia. replace (y - y0 =? ry it - y0) with (y =? ry it) by lia.
        ring.
      * destruct ((x =? rx it) && (y =? ry it)) eqn:E3; auto. lia.
  - exists []. split; auto. split; [intros x y v []|]. intros. unfold wsum. cbn.
    destruct ((x0 <=? x) && (x <? x1) && (y0 <=? y) && (y <? y1)); auto.
Qed.
