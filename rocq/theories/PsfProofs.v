(* Proofs about PSF kernels and the radius table. *)
From Coq Require Import Lia Sorted.
From Verif Require Import Vec3 PsfModel.
Open Scope R_scope.

Definition total (l : list R) : R := fold_right Rplus 0 l.
Lemma total_app a b : total (a ++ b) = total a + total b.
Proof. unfold total. induction a; cbn; [|rewrite IHa]; lra. Qed.
Lemma total_scale c l : total (map (fun x => x * c) l) = total l * c.
Proof. unfold total. induction l; cbn; [|rewrite IHl]; lra. Qed.
Lemma total_nonneg l : (forall x, In x l -> 0 <= x) -> 0 <= total l.
Proof. unfold total. induction l; cbn; intros H; [lra|]. assert (0 <= a) by auto. assert (0 <= fold_right Rplus 0 l) by auto. lra. Qed.
Lemma total_ge l x : (forall y, In y l -> 0 <= y) -> In x l -> x <= total l.
Proof. induction l; cbn; intros H I; [destruct I|]. assert (0 <= a) by auto. assert (0 <= total l) by (apply total_nonneg; auto). change (x <= a + total l). destruct I as [->|I]; [lra|]. assert (x <= total l) by auto. lra. Qed.
Lemma total_const n c : total (repeat c n) = INR n * c.
Proof. unfold total. induction n; [cbn; lra|]. rewrite S_INR. cbn. lra. Qed.
Lemma total_bounds l lo hi : (forall x, In x l -> lo <= x <= hi) -> INR (List.length l) * lo <= total l <= INR (List.length l) * hi.
Proof. unfold total. induction l; [cbn; lra|]. cbn [List.length]. rewrite S_INR. cbn [fold_right]. intros H. assert (lo <= a <= hi) by (apply H; left; auto). assert (I := IHl (fun x h => H x (or_intror h))). lra. Qed.

Lemma osum_none l : fold_left (fun acc x => match acc, x with Some a, Some b => Some (a + b) | _, _ => None end) l (@None R) = None.
Proof. induction l; cbn; auto. Qed.
Lemma osum_some vals : osum (map Some vals) = Some (total vals).
Proof.
  unfold osum. assert (G: forall a, fold_left (fun acc x => match acc, x with Some a, Some b => Some (a + b) | _, _ => None end) (map Some vals) (Some a) = Some (a + total vals)).
  { induction vals as [|v vs IH]; intros a; cbn; [f_equal; unfold total; cbn; lra|]. rewrite IH. f_equal. unfold total. cbn. lra. }
  rewrite G. f_equal. lra.
Qed.
Lemma all_some (A : Type) (f : A -> option R) (P : A -> R -> Prop) l : (forall x, In x l -> exists a, f x = Some a /\ P x a) ->
  exists g, (forall x, In x l -> f x = Some (g x) /\ P x (g x)) /\ map f l = map Some (map g l).
Proof.
  intros H. exists (fun x => match f x with Some a => a | None => 0 end). split.
  - intros x Hx. destruct (H x Hx) as (a & E & Pa). rewrite E. auto.
  - rewrite map_map. apply map_ext_in. intros x Hx. destruct (H x Hx) as (a & E & Pa). rewrite E. reflexivity.
Qed.
Lemma in_zlist a b z : In z (zlist a b) <-> (a <= z < b)%Z.
Proof.
  unfold zlist. rewrite in_map_iff. split.
  - intros (k & <- & Hk). apply in_seq in Hk. lia.
  - intros H. exists (Z.to_nat (z - a)). split; [lia|]. apply in_seq. lia.
Qed.
Lemma zlist_length a b : List.length (zlist a b) = Z.to_nat (b - a).
Proof. unfold zlist. rewrite map_length, seq_length. reflexivity. Qed.

(** floors *)
Lemma trunc_nonneg x : 0 <= x -> (0 <= trunc x)%Z /\ IZR (trunc x) <= x < IZR (trunc x) + 1.
Proof.
  intros H. unfold trunc. rewrite (proj2 (Rleb_true _ _)) by auto. destruct (base_Int_part x) as (A & B). split; [|lra].
  apply Z.lt_succ_r. apply lt_IZR. rewrite succ_IZR. lra.
Qed.
Lemma trunc_range x n : 0 <= x -> x < IZR n -> (0 <= trunc x < n)%Z.
Proof. intros H L. destruct (trunc_nonneg x H) as (A & B). split; auto. apply lt_IZR. lra. Qed.

(** table lookup *)
Lemma lut_res_big radius : (2048 <= lut_res radius)%Z. Proof. unfold lut_res. lia. Qed.
Definition cell (radius : Z) : R := 2 * max_radius radius / IZR (lut_res radius - 1).
Lemma res_pos radius : 0 < IZR (lut_res radius - 1).
Proof. apply IZR_lt. pose proof (lut_res_big radius). lia. Qed.
Lemma maxr_pos radius : (0 <= radius)%Z -> 1 <= max_radius radius.
Proof. intros H. unfold max_radius. assert (0 <= IZR radius) by (apply IZR_le; auto). lra. Qed.
Lemma cell_pos radius : (0 <= radius)%Z -> 0 < cell radius.
Proof. intros H. unfold cell. pose proof (maxr_pos radius H). pose proof (res_pos radius). apply Rdiv_lt_0_compat; lra. Qed.
Lemma cell_small radius : (0 <= radius)%Z -> cell radius <= 1 / 16.
Proof.
  intros H. unfold cell. pose proof (res_pos radius) as P. apply (Rmult_le_reg_r (IZR (lut_res radius - 1))); auto. unfold Rdiv at 1. rewrite Rmult_assoc, Rinv_l, Rmult_1_r by lra.
  unfold max_radius. assert (32 * radius + 32 <= lut_res radius - 1)%Z by (unfold lut_res, dim; lia). apply IZR_le in H0. rewrite plus_IZR, mult_IZR in H0. lra.
Qed.
Lemma grid_coord radius u i : (0 <= radius)%Z -> grid radius i - u = (IZR i - lut_coord radius u) * cell radius.
Proof. intros H. unfold grid, lut_coord, cell. pose proof (maxr_pos radius H). pose proof (res_pos radius). field. split; lra. Qed.
Lemma lut_at_in ev radius x y : (0 <= x < lut_res radius)%Z -> (0 <= y < lut_res radius)%Z -> lut_at ev radius (y * lut_res radius + x) = Some (ev (grid radius x) (grid radius y)).
Proof.
  intros Hx Hy. pose proof (lut_res_big radius). unfold lut_at. cbv zeta. set (res := lut_res radius) in *.
  rewrite (proj2 (Z.leb_le _ _)), (proj2 (Z.ltb_lt _ _)) by nia. cbn [andb].
  replace ((y * res + x) mod res)%Z with x by (apply (Z.mod_unique _ _ y); lia). replace ((y * res + x) / res)%Z with y by (apply (Z.div_unique _ _ _ x); lia). reflexivity.
Qed.
Lemma lerp_bounds a b t lo hi : 0 <= t <= 1 -> lo <= a <= hi -> lo <= b <= hi -> lo <= a * (1 - t) + b * t <= hi.
Proof. intros. nra. Qed.
Lemma sample_lut_local ev radius u v lo hi : (0 <= radius)%Z -> Rabs u < max_radius radius -> Rabs v < max_radius radius ->
  (forall x y, Rabs (x - u) <= cell radius -> Rabs (y - v) <= cell radius -> lo <= ev x y <= hi) -> exists s, sample_lut ev radius u v = Some s /\ lo <= s <= hi.
Proof.
  intros HR Hu Hv HE. apply Rabs_def2 in Hu. apply Rabs_def2 in Hv. pose proof (maxr_pos radius HR) as MP. pose proof (res_pos radius) as RP. pose proof (cell_pos radius HR) as CP.
  assert (CO: forall w, - max_radius radius < w < max_radius radius -> 0 <= lut_coord radius w < IZR (lut_res radius - 1)).
  { intros w Hw. unfold lut_coord. assert (-1 < w / max_radius radius < 1).
    { split; apply (Rmult_lt_reg_r (max_radius radius)); try lra; unfold Rdiv; rewrite Rmult_assoc, Rinv_l by lra; lra. }
    split; [apply Rmult_le_pos; lra|]. apply Rlt_le_trans with (1 * IZR (lut_res radius - 1)); [apply Rmult_lt_compat_r; lra|lra]. }
  pose proof (CO u ltac:(lra)) as CU. pose proof (CO v ltac:(lra)) as CV. unfold sample_lut. cbv zeta.
  set (xf := lut_coord radius u) in *. set (yf := lut_coord radius v) in *.
  rewrite (proj2 (Rltb_false xf 0)), (proj2 (Rleb_false _ xf)), (proj2 (Rltb_false yf 0)), (proj2 (Rleb_false _ yf)) by lra. cbn [orb].
  destruct (trunc_nonneg xf ltac:(lra)) as (TX & TX'). destruct (trunc_nonneg yf ltac:(lra)) as (TY & TY').
  pose proof (trunc_range xf (lut_res radius - 1) ltac:(lra) ltac:(lra)) as RX. pose proof (trunc_range yf (lut_res radius - 1) ltac:(lra) ltac:(lra)) as RY.
  set (x0 := trunc xf) in *. set (y0 := trunc yf) in *.
  assert (GR: forall w i, Rabs (IZR i - lut_coord radius w) <= 1 -> Rabs (grid radius i - w) <= cell radius).
  { intros w i Hi. rewrite grid_coord, Rabs_mult by auto. rewrite (Rabs_pos_eq (cell radius)) by lra. rewrite <- (Rmult_1_l (cell radius)) at 2. apply Rmult_le_compat_r; lra. }
  assert (E: forall i j, (i = x0 \/ i = x0 + 1)%Z -> (j = y0 \/ j = y0 + 1)%Z -> lo <= ev (grid radius i) (grid radius j) <= hi).
  { intros i j Hi Hj. apply HE; apply GR; apply Rabs_le; fold xf yf; destruct Hi as [->| ->], Hj as [->| ->]; rewrite ?plus_IZR; lra. }
  rewrite !lut_at_in by lia. destruct (Req_EM_T xf (IZR x0)) as [EX|NX].
  - destruct (Req_EM_T yf (IZR y0)) as [EY|NY]; [eexists; split; [reflexivity|]; apply E; auto|]. eexists. split; [reflexivity|]. apply lerp_bounds; [lra| |]; apply lerp_bounds; try lra; apply E; auto.
  - eexists. split; [reflexivity|]. apply lerp_bounds; [lra| |]; apply lerp_bounds; try lra; apply E; auto.
Qed.
(* total: always defined, and non-negative for a non-negative PSF *)
Lemma sample_lut_defined ev radius u v : (0 <= radius)%Z -> (forall x y, 0 <= ev x y) -> exists s, sample_lut ev radius u v = Some s /\ 0 <= s.
Proof.
  intros HR HE. pose proof (maxr_pos radius HR) as MP. pose proof (res_pos radius) as RP.
  destruct (Rltb (lut_coord radius u) 0 || Rleb (IZR (lut_res radius - 1)) (lut_coord radius u) || Rltb (lut_coord radius v) 0 || Rleb (IZR (lut_res radius - 1)) (lut_coord radius v))%bool eqn:B.
  { exists 0. split; [|lra]. unfold sample_lut. cbv zeta. rewrite B. reflexivity. }
  apply Bool.orb_false_iff in B as (B & B4). apply Bool.orb_false_iff in B as (B & B3). apply Bool.orb_false_iff in B as (B1 & B2). apply Rltb_false in B1, B3. apply Rleb_false in B2, B4.
  unfold sample_lut. cbv zeta. rewrite (proj2 (Rltb_false (lut_coord radius u) 0)), (proj2 (Rleb_false _ (lut_coord radius u))), (proj2 (Rltb_false (lut_coord radius v) 0)), (proj2 (Rleb_false _ (lut_coord radius v))) by lra. cbn [orb].
  set (xf := lut_coord radius u) in *. set (yf := lut_coord radius v) in *.
  destruct (trunc_nonneg xf ltac:(lra)) as (TX & TX'). destruct (trunc_nonneg yf ltac:(lra)) as (TY & TY').
  pose proof (trunc_range xf (lut_res radius - 1) ltac:(lra) ltac:(lra)) as RX. pose proof (trunc_range yf (lut_res radius - 1) ltac:(lra) ltac:(lra)) as RY.
  set (x0 := trunc xf) in *. set (y0 := trunc yf) in *. rewrite !lut_at_in by lia.
  assert (LB: forall a b t, 0 <= t <= 1 -> 0 <= a -> 0 <= b -> 0 <= a * (1 - t) + b * t) by (intros; nra).
  destruct (Req_EM_T xf (IZR x0)); [destruct (Req_EM_T yf (IZR y0))|]; eexists; (split; [reflexivity|]); auto; apply LB; try lra; apply LB; auto; lra.
Qed.

(** kernels *)
Lemma sub_bounds s : (0 <= s < 16)%Z -> - (1 / 2) < sub s < 1 / 2.
Proof. intros H. unfold sub. assert (0 <= IZR s <= 15) by (split; apply IZR_le; lia). lra. Qed.
Lemma flat_map_ext_in (A B : Type) (f g : A -> list B) l : (forall x, In x l -> f x = g x) -> flat_map f l = flat_map g l.
Proof. induction l; cbn; intros H; auto. rewrite (H a) by auto. rewrite IHl; auto. Qed.
Lemma map_flat_map (A B C : Type) (f : A -> list B) (g : B -> C) l : map g (flat_map f l) = flat_map (fun x => map g (f x)) l.
Proof. induction l; cbn; auto. rewrite map_app, IHl. reflexivity. Qed.
Definition subsamples : list (Z * Z) := flat_map (fun sy => map (fun sx => (sx, sy)) (zlist 0 16)) (zlist 0 16).
Lemma in_subsamples p : In p subsamples <-> (0 <= fst p < 16)%Z /\ (0 <= snd p < 16)%Z.
Proof.
  unfold subsamples. rewrite in_flat_map. split.
  - intros (y & Hy & Hp). apply in_map_iff in Hp as (x & <- & Hx). apply in_zlist in Hx, Hy. cbn. auto.
  - destruct p as (x & y). cbn [fst snd]. intros (Hx & Hy). exists y. split; [apply in_zlist; auto|]. apply in_map_iff. exists x. split; auto. apply in_zlist; auto.
Qed.
Lemma raw_as_map ev radius banks bx by' x y : raw_kernel ev radius banks bx by' x y =
  match osum (map (fun p => sample_lut ev radius (sample_pos radius banks bx x (fst p)) (sample_pos radius banks by' y (snd p))) subsamples) with Some t => Some (t * (1 / 256)) | None => None end.
Proof.
  unfold raw_kernel, subsamples. rewrite map_flat_map. match goal with |- match osum ?a with _ => _ end = match osum ?b with _ => _ end => assert (E: a = b); [|rewrite E; reflexivity] end.
  apply flat_map_ext_in. intros sy _. rewrite map_map. reflexivity.
Qed.
Lemma raw_defined ev radius banks bx by' x y : (0 <= radius)%Z -> (forall x y, 0 <= ev x y) -> exists r, raw_kernel ev radius banks bx by' x y = Some r /\ 0 <= r.
Proof.
  intros HR HE. rewrite raw_as_map.
  destruct (all_some _ (fun p => sample_lut ev radius (sample_pos radius banks bx x (fst p)) (sample_pos radius banks by' y (snd p))) (fun _ s => 0 <= s) subsamples (fun p _ => sample_lut_defined ev radius _ _ HR HE)) as (g & Hg & E).
  rewrite E, osum_some. eexists. split; [reflexivity|]. assert (0 <= total (map g subsamples)); [|lra]. apply total_nonneg. intros s Hs. apply in_map_iff in Hs as (p & <- & Hp). apply Hg; auto.
Qed.
Lemma raw_local ev radius banks bx by' x y lo hi : (0 <= radius)%Z ->
  (forall sx sy, (0 <= sx < 16)%Z -> (0 <= sy < 16)%Z -> exists s, sample_lut ev radius (sample_pos radius banks bx x sx) (sample_pos radius banks by' y sy) = Some s /\ lo <= s <= hi) ->
  exists r, raw_kernel ev radius banks bx by' x y = Some r /\ lo <= r <= hi.
Proof.
  intros HR HE. rewrite raw_as_map.
  destruct (all_some _ (fun p => sample_lut ev radius (sample_pos radius banks bx x (fst p)) (sample_pos radius banks by' y (snd p))) (fun _ s => lo <= s <= hi) subsamples) as (g & Hg & E).
  { intros p Hp. apply in_subsamples in Hp as (A & B). apply HE; auto. }
  rewrite E, osum_some. eexists. split; [reflexivity|]. pose proof (total_bounds (map g subsamples) lo hi) as TB.
  replace (INR (List.length (map g subsamples))) with 256 in TB by (rewrite map_length; replace (List.length subsamples) with 256%nat by reflexivity; rewrite INR_IZR_INZ; reflexivity).
  assert (T: 256 * lo <= total (map g subsamples) <= 256 * hi) by (apply TB; intros s Hs; apply in_map_iff in Hs as (p & <- & Hp); apply Hg; auto). lra.
Qed.
Lemma in_pixels radius p : In p (pixels radius) <-> (0 <= fst p < dim radius)%Z /\ (0 <= snd p < dim radius)%Z.
Proof.
  unfold pixels. rewrite in_flat_map. split.
  - intros (y & Hy & Hp). apply in_map_iff in Hp as (x & <- & Hx). apply in_zlist in Hx, Hy. cbn. auto.
  - destruct p as (x & y). cbn [fst snd]. intros (Hx & Hy). exists y. split; [apply in_zlist; auto|]. apply in_map_iff. exists x. split; auto. apply in_zlist; auto.
Qed.
Lemma kernel_defined ev radius banks bx by' : (0 <= radius)%Z -> (forall x y, 0 <= ev x y) ->
  exists (r : Z -> Z -> R) e, (forall x y, raw_kernel ev radius banks bx by' x y = Some (r x y) /\ 0 <= r x y) /\ total_energy ev radius banks bx by' = Some e /\ e = total (map (fun p => r (fst p) (snd p)) (pixels radius)) /\
    forall x y, kernel ev radius banks bx by' x y = Some (r x y * energy_scale e).
Proof.
  intros HR HE. set (r := fun x y => match raw_kernel ev radius banks bx by' x y with Some a => a | None => 0 end).
  assert (RD: forall x y, raw_kernel ev radius banks bx by' x y = Some (r x y) /\ 0 <= r x y) by (intros x y; unfold r; destruct (raw_defined ev radius banks bx by' x y HR HE) as (a & E & P); rewrite E; auto).
  exists r, (total (map (fun p => r (fst p) (snd p)) (pixels radius))). assert (TE: total_energy ev radius banks bx by' = Some (total (map (fun p => r (fst p) (snd p)) (pixels radius)))).
  { unfold total_energy. rewrite <- osum_some, map_map. f_equal. apply map_ext. intros p. apply RD. }
  split; [exact RD|]. split; [exact TE|]. split; [reflexivity|]. intros x y. unfold kernel. rewrite TE, (proj1 (RD x y)). reflexivity.
Qed.

(** the radius table *)
Lemma fold_max_ge (A : Type) (f : A -> R) l a : a <= fold_left (fun m x => Rmax m (f x)) l a /\ (forall x, In x l -> f x <= fold_left (fun m x => Rmax m (f x)) l a) /\
  (fold_left (fun m x => Rmax m (f x)) l a = a \/ exists x, In x l /\ fold_left (fun m x => Rmax m (f x)) l a = f x).
Proof.
  revert a. induction l as [|y l IH]; intros a; cbn; [split; [lra|split; [tauto|auto]]|].
  destruct (IH (Rmax a (f y))) as (A1 & B & C). split; [pose proof (Rmax_l a (f y)); lra|]. split.
  - intros x [->|H]; [pose proof (Rmax_r a (f x)); lra|auto].
  - destruct C as [C|(x & I & C)]; [|right; eauto]. rewrite C. unfold Rmax. destruct (Rle_dec a (f y)); [right; exists y; auto|auto].
Qed.
(* what the scan of a list of pixels finds *)
Lemma scan_spec k kw kh conv l a : let s := fold_left (scan_pixel k kw kh conv) l a in a <= s /\
  (forall p wc, In p l -> (fst p < kw)%Z -> (snd p < kh)%Z -> In wc (combine (k (fst p) (snd p)) conv) -> fst wc * snd wc <= s) /\
  (s = a \/ exists p wc, In p l /\ (fst p < kw)%Z /\ (snd p < kh)%Z /\ In wc (combine (k (fst p) (snd p)) conv) /\ s = fst wc * snd wc).
Proof.
  revert a. induction l as [|p l IH]; intros a; cbn [fold_left]; cbv zeta; [split; [lra|split; [intros; contradiction|auto]]|].
  destruct (IH (scan_pixel k kw kh conv a p)) as (A & B & C).
  assert (SP: a <= scan_pixel k kw kh conv a p /\ ((fst p < kw)%Z -> (snd p < kh)%Z -> forall wc, In wc (combine (k (fst p) (snd p)) conv) -> fst wc * snd wc <= scan_pixel k kw kh conv a p) /\
    (scan_pixel k kw kh conv a p = a \/ (fst p < kw)%Z /\ (snd p < kh)%Z /\ exists wc, In wc (combine (k (fst p) (snd p)) conv) /\ scan_pixel k kw kh conv a p = fst wc * snd wc)).
  { unfold scan_pixel. destruct (Z.leb_spec kw (fst p)), (Z.leb_spec kh (snd p)); cbn [orb]; try (split; [lra|]; split; [intros; lia|auto]).
    destruct (fold_max_ge _ (fun wc : R * R => fst wc * snd wc) (combine (k (fst p) (snd p)) conv) a) as (X & Y & Z). split; [exact X|]. split; [intros; apply Y; auto|]. destruct Z as [Z|(wc & I & Z)]; [left; exact Z|right; split; [auto|split; [auto|exists wc; auto]]]. }
  destruct SP as (S1 & S2 & S3). split; [lra|]. split.
  - intros q wc [->|I] H1 H2 H3; [specialize (S2 H1 H2 wc H3); lra|eapply B; eauto].
  - destruct C as [C|(q & wc & I & H1 & H2 & H3 & C)]; [|right; exists q, wc; cbn; auto 8]. destruct S3 as [S3|(H1 & H2 & wc & H3 & S3)]; [left; congruence|right; exists p, wc; cbn; repeat split; auto; congruence].
Qed.
Definition ring (full : Z) (p : Z * Z) : Z := Z.max (Z.abs (fst p - full)) (Z.abs (snd p - full)).
Lemma in_ring full r p : (0 < r)%Z -> (In p (ring_pixels full r) <-> ring full p = r).
Proof.
  intros Hr. unfold ring_pixels, ring. cbv zeta. rewrite in_app_iff, !in_flat_map. split.
  - intros [(z & Hz & Hp)|(z & Hz & Hp)]; apply in_zlist in Hz; cbn in Hp; destruct Hp as [<-|[<-|[]]]; cbn; lia.
  - intros H. destruct p as (x & y). cbn in *. destruct (Z.eq_dec (Z.abs (y - full)) r) as [E|E].
    + left. exists x. split; [apply in_zlist; lia|]. cbn. assert (y = full - r \/ y = full + r)%Z as [->| ->] by lia; auto.
    + right. exists y. split; [apply in_zlist; lia|]. cbn. assert (x = full - r \/ x = full + r)%Z as [->| ->] by lia; auto.
Qed.
(* the entries are in increasing order of radius, so the last match is the largest *)
Lemma find_rev_sorted (l : list (Z * R)) f e : StronglySorted (fun a b => (fst a < fst b)%Z) l -> find f (rev l) = Some e -> In e l /\ f e = true /\ forall e', In e' l -> f e' = true -> (fst e' <= fst e)%Z.
Proof.
  intros HS. induction HS as [|a l HS IH HF]; cbn; [discriminate|]. intros H.
  assert (FA: forall l1 l2, find f (l1 ++ l2) = match find f l1 with Some x => Some x | None => find f l2 end) by (induction l1 as [|z l1 I1]; intros l2; cbn; auto; destruct (f z); auto).
  rewrite FA in H. destruct (find f (rev l)) as [x|] eqn:F.
  - injection H as ->. destruct (IH eq_refl) as (I & T & M). split; auto. split; auto. intros e' [<-|I'] T'; auto. rewrite Forall_forall in HF. specialize (HF e I). lia.
  - cbn in H. destruct (f a) eqn:FA'; [|discriminate]. injection H as <-. split; auto. split; auto. intros e' [<-|I'] T'; [lia|]. apply in_rev in I'. pose proof (find_none f (rev l) F e' I'). congruence.
Qed.
Lemma sorted_lut k kw kh full area energies thr : StronglySorted (fun a b => (fst a < fst b)%Z) (build_radius_lut k kw kh full area energies thr) /\
  forall e, In e (build_radius_lut k kw kh full area energies thr) <-> (1 <= fst e <= full)%Z /\ 0 < ring_sensitivity k kw kh (conversion area energies) full (fst e) /\ snd e = thr / ring_sensitivity k kw kh (conversion area energies) full (fst e).
Proof.
  unfold build_radius_lut. destruct (Z.leb_spec full 0).
  { split; [constructor|]. intros e. cbn. split; [tauto|]. lia. }
  set (f := fun r => let s := ring_sensitivity k kw kh (conversion area energies) full r in if Rltb 0 s then [(r, thr / s)] else []).
  assert (FI: forall r e, In e (f r) <-> fst e = r /\ 0 < ring_sensitivity k kw kh (conversion area energies) full r /\ snd e = thr / ring_sensitivity k kw kh (conversion area energies) full r).
  { intros r e. unfold f. cbv zeta. destruct (Rltb 0 _) eqn:B; rb; cbn; split.
    - intros [<-|[]]; cbn; auto.
    - intros (<- & P & E). left. destruct e; cbn in *. congruence.
    - tauto.
    - intros (_ & P & _). lra. }
  split.
  - unfold zlist. assert (G: forall n a, StronglySorted (fun a b : Z * R => (fst a < fst b)%Z) (flat_map f (map (fun j => (1 + Z.of_nat j)%Z) (seq a n)))).
    { induction n as [|n IH]; intros a; cbn [seq map flat_map]; [constructor|]. specialize (IH (S a)).
      assert (TL: forall e, In e (flat_map f (map (fun j => (1 + Z.of_nat j)%Z) (seq (S a) n))) -> (1 + Z.of_nat a < fst e)%Z).
      { intros e He. apply in_flat_map in He as (z & Hz & He). apply in_map_iff in Hz as (j & <- & Hj). apply in_seq in Hj. apply FI in He as (-> & _). lia. }
      destruct (f (1 + Z.of_nat a)%Z) as [|x t] eqn:E; [exact IH|].
      assert (t = []) as -> by (unfold f in E; cbv zeta in E; destruct (Rltb _ _); [injection E as _ <-; reflexivity|discriminate]). cbn. constructor; [exact IH|]. apply Forall_forall. intros e He.
      assert (fst x = 1 + Z.of_nat a)%Z as -> by (apply FI; rewrite E; left; auto). apply TL; auto. }
    apply G.
  - intros e. rewrite in_flat_map. split.
    + intros (r & Hr & He). apply in_zlist in Hr. apply FI in He as (-> & P & Q). split; [lia|]. auto.
    + intros (Hr & P & Q). exists (fst e). split; [apply in_zlist; lia|]. apply FI. auto.
Qed.
