From Verif Require Import Vec3 DistortionModel FrustumModel CameraModel CameraSpec.

Ltac vring := apply v3_eq; unfold vscale, vadd, vsub, cross; cbn [vx vy vz]; try field; try lra.

Lemma dot_nonneg v : 0 <= dot v v. Proof. unfold dot. nra. Qed.
Lemma dot_zero v : dot v v = 0 -> v = vzero.
Proof. unfold dot. intros H. apply v3_eq; unfold vzero; cbn [vx vy vz]; nra. Qed.
Lemma normalize_some d : d <> vzero -> exists k, 0 < k /\ normalize d = Some (vscale k d).
Proof.
  intros H. unfold normalize. destruct (Req_EM_T (dot d d) 0) as [E|E]; [apply dot_zero in E; contradiction|].
  exists (/ vlen d). split; auto. apply Rinv_0_lt_compat, sqrt_lt_R0. pose proof (dot_nonneg d). lra.
Qed.
Lemma normalize_inv d v : normalize d = Some v -> d <> vzero /\ exists k, 0 < k /\ v = vscale k d.
Proof.
  intros H. assert (N : d <> vzero).
  { intros ->. unfold normalize in H. destruct (Req_EM_T _ 0) as [E|E]; [discriminate|]. apply E. unfold dot, vzero; cbn; ring. }
  split; auto. destruct (normalize_some d N) as (k & Hk & E). rewrite E in H. inversion H. eauto.
Qed.
Lemma normalize_unit d v : normalize d = Some v -> dot v v = 1.
Proof.
  unfold normalize. destruct (Req_EM_T (dot d d) 0) as [E|E]; [discriminate|]. intros H; inversion H; subst; clear H.
  pose proof (dot_nonneg d). assert (S : vlen d * vlen d = dot d d) by (apply sqrt_sqrt; auto).
  assert (0 < vlen d) by (apply sqrt_lt_R0; lra).
  replace (dot (vscale (/ vlen d) d) (vscale (/ vlen d) d)) with (/ vlen d * / vlen d * dot d d) by (unfold dot, vscale; cbn [vx vy vz]; ring).
  rewrite <- S. field. lra.
Qed.
Lemma unit_coord v : dot v v = 1 -> -1 <= vz v <= 1.
Proof. unfold dot. intros. nra. Qed.

(* ---- projection ---- *)
Lemma project_direction f g u v dm b p k : f <> 0 -> g <> 0 -> k <> 0 ->
  (forall d, dm = Some d -> d_distort d (d_undistort d ((fst p - u) / f, (snd p - v) / g)) = ((fst p - u) / f, (snd p - v) / g)) ->
  project_point f g u v dm b (vscale k (pixel_to_direction f g u v dm b p)) = p.
Proof.
  intros Hf Hg Hk Hd. unfold project_point, pixel_to_direction. destruct p as [x y]. cbn [fst snd] in *.
  assert (H : forall n : pixel, ((k * fst n) / k, (1 * (k * snd n)) / k) = n) by (intros [a e]; cbn; f_equal; field; auto).
  assert (H' : forall n : pixel, ((k * fst n) / - (k * -1), (-1 * (k * - snd n)) / - (k * -1)) = n) by (intros [a e]; cbn; f_equal; field; lra).
  destruct dm as [d|].
  - specialize (Hd d eq_refl). destruct b; cbn [vx vy vz vscale]; rewrite ?Rmult_1_r, ?H, ?H', Hd; cbn [fst snd]; f_equal; field; auto.
  - destruct b; cbn [vx vy vz vscale]; f_equal; cbn [fst snd]; field; auto.
Qed.
Lemma direction_project f g u v dm b p : f <> 0 -> g <> 0 -> 0 < depth b p ->
  (forall d, dm = Some d -> let n := (vx p / depth b p, (if b then -1 else 1) * vy p / depth b p) in d_undistort d (d_distort d n) = n) ->
  vscale (depth b p) (pixel_to_direction f g u v dm b (project_point f g u v dm b p)) = p.
Proof.
  intros Hf Hg Hz Hd. unfold project_point, pixel_to_direction. fold (depth b p).
  assert (E : forall n : pixel, ((f * fst n + u - u) / f, (g * snd n + v - v) / g) = n).
  { intros [a e]. cbn. f_equal; field; auto. }
  destruct dm as [d|]; cbn [fst snd].
  - specialize (Hd d eq_refl). cbv zeta in Hd. rewrite E, Hd. unfold depth in *. destruct b; cbn [fst snd]; vring.
  - unfold depth in *. destruct b; cbn [fst snd]; vring; split; lra.
Qed.

(* ---- frustum ---- *)
Lemma scan_app dir z a b s : scan dir z (a ++ b) s = scan dir z b (scan dir z a s).
Proof. revert s; induction a as [|[i j] a IH]; intros s; cbn; auto. Qed.
(* the extremum has any property that all candidates have *)
Lemma scan_prop (P : vec3 -> Prop) dir z pts s :
  (forall i j, In (i, j) pts -> exists d, dir i j = Some d /\ P d) ->
  P (fst s) -> P (fst (scan dir z pts s)).
Proof.
  revert s; induction pts as [|[i j] r IH]; intros s H HP; cbn; auto.
  destruct (H i j) as (d & Ed & Pd); [left; auto|]. rewrite Ed. apply IH; [intros; apply H; right; auto|].
  destruct (Rltb _ _); auto.
Qed.
Lemma scan_first (P : vec3 -> Prop) dir z pts : pts <> [] ->
  (forall i j, In (i, j) pts -> exists d, dir i j = Some d /\ P d /\ dot d z < 100) ->
  P (fst (scan dir z pts (vzero, 100))).
Proof.
  destruct pts as [|[i j] r]; intros N H; [congruence|]. cbn [scan].
  destruct (H i j) as (d & Ed & Pd & L); [left; auto|]. rewrite Ed. cbn [snd].
  replace (Rltb (dot d z) 100) with true by (symmetry; apply Rltb_true; auto).
  apply scan_prop; auto. intros i' j' Hin. destruct (H i' j') as (d' & A & B & _); [right; auto|]. eauto.
Qed.
Lemma zrange_in a b x : In x (zrange a b) <-> (a <= x < b)%Z.
Proof.
  unfold zrange. rewrite in_map_iff. split.
  - intros (k & E & H). apply in_seq in H. lia.
  - intros H. exists (Z.to_nat (x - a)). split; [lia|]. apply in_seq. lia.
Qed.
Lemma zrange_nonempty a b : (a < b)%Z -> zrange a b <> [].
Proof. intros H E. assert (In a (zrange a b)) by (apply zrange_in; lia). rewrite E in *. contradiction. Qed.

Lemma contains_iff l p : contains l p = true <-> forall n, In n l -> 0 <= dot n p.
Proof.
  induction l as [|n l IH]; cbn; [split; [contradiction|auto]|].
  destruct (Rltb (dot n p) 0) eqn:E; rb.
  - split; [discriminate|]. intros H. specialize (H n (or_introl eq_refl)). lra.
  - rewrite IH. split; intros H; [intros m [<-|Hm]; auto | intros; apply H; right; auto].
Qed.
Lemma real_planes_in l n : In n (real_planes l) <-> In (Some n) l.
Proof.
  unfold real_planes. rewrite in_flat_map. split.
  - intros ([m|] & H & Hin); cbn in Hin; destruct Hin; subst; auto; contradiction.
  - intros H. exists (Some n). split; auto. left; auto.
Qed.

Lemma sign_scale a b k e : 0 < k -> a - b = k * e -> (b <= a <-> 0 <= e) /\ (a <= b <-> 0 <= - e).
Proof.
  intros Hk E. split; split; intros H.
  - apply Rmult_le_reg_l with k; lra.
  - assert (0 <= k * e) by (apply Rmult_le_pos; lra). lra.
  - apply Rmult_le_reg_l with k; auto. lra.
  - assert (0 <= k * - e) by (apply Rmult_le_pos; lra). lra.
Qed.

Section FrustumExact.
Variable sample : image (option vec3) -> R -> R -> option vec3.
Variables (c : camera) (f g u v : R).
Hypothesis (Efx : fx c = Fin f) (Efy : fy c = Fin g) (Ecx : cx c = Fin u) (Ecy : cy c = Fin v).
Hypothesis (Hf : 0 < f) (Hg : 0 < g) (Hd : dist c = None).

Definition sgn (b : bool) : R := if b then -1 else 1.
Let s := sgn (blender c).
Definition nx (i : Z) := (IZR i - u) / f.
Definition ny (j : Z) := (IZR j - v) / g.

Lemma cast_dir_eq i j : exists k, 0 < k /\
  cast_dir sample c i j = Some (V3 (k * nx i) (k * (s * ny j)) (k * s))
  /\ -1 <= k * s <= 1.
Proof.
  unfold cast_dir, pix_dir. rewrite Hd, Efx, Efy, Ecx, Ecy.
  destruct (Req_EM_T f 0); [lra|]. destruct (Req_EM_T g 0); [lra|]. cbn [onorm].
  set (D := pixel_to_direction f g u v None (blender c) (zpix i j)).
  assert (ED : D = V3 (nx i) (s * ny j) s).
  { unfold D, s, sgn, pixel_to_direction, nx, ny, zpix. cbn [fst snd]. destruct (blender c); f_equal; try ring. }
  assert (ND : D <> vzero). { rewrite ED. unfold s, sgn, vzero. destruct (blender c); intros X; inversion X; lra. }
  destruct (normalize_some D ND) as (k & Hk & E). exists k. split; auto. rewrite E. split.
  - rewrite ED. unfold vscale; cbn [vx vy vz]. reflexivity.
  - apply normalize_unit in E as U. apply unit_coord in U. rewrite ED in U. cbn [vz vscale] in U. exact U.
Qed.

Let zdir := if blender c then V3 0 0 (-1) else V3 0 0 1.
Let ydir := if blender c then V3 0 (-1) 0 else V3 0 1 0.
Let xdir := V3 1 0 0.
Definition ext (pts : list (Z * Z)) := fst (scan (cast_dir sample c) zdir pts (vzero, 100)).

Lemma s_sq : s * s = 1. Proof. unfold s, sgn. destruct (blender c); ring. Qed.
Lemma zdir_eq : zdir = V3 0 0 s. Proof. unfold zdir, s, sgn. destruct (blender c); reflexivity. Qed.
Lemma ydir_eq : ydir = V3 0 s 0. Proof. unfold ydir, s, sgn. destruct (blender c); reflexivity. Qed.

(* row j: the extremum is a positive multiple of (?, s ny, s) *)
Lemma ext_row j l : l <> [] -> exists k a, 0 < k /\ ext (map (fun i => (i, j)) l) = V3 a (k * (s * ny j)) (k * s).
Proof.
  intros N. unfold ext. apply (scan_first (fun d => exists k a, 0 < k /\ d = V3 a (k * (s * ny j)) (k * s))).
  - destruct l; cbn; congruence.
  - intros i j' Hin. apply in_map_iff in Hin as (i' & E & _). inversion E; subst.
    destruct (cast_dir_eq i j') as (k & Hk & Ec & B). rewrite Ec. eexists. split; [reflexivity|]. split; [eauto|].
    rewrite zdir_eq. unfold dot; cbn [vx vy vz]. pose proof s_sq. unfold s, sgn in *. destruct (blender c); lra.
Qed.
Lemma ext_col i l : l <> [] -> exists k a, 0 < k /\ ext (map (fun j => (i, j)) l) = V3 (k * nx i) a (k * s).
Proof.
  intros N. unfold ext. apply (scan_first (fun d => exists k a, 0 < k /\ d = V3 (k * nx i) a (k * s))).
  - destruct l; cbn; congruence.
  - intros i' j Hin. apply in_map_iff in Hin as (j' & E & _). inversion E; subst.
    destruct (cast_dir_eq i' j) as (k & Hk & Ec & B). rewrite Ec. eexists. split; [reflexivity|]. split; [eauto|].
    rewrite zdir_eq. unfold dot; cbn [vx vy vz]. pose proof s_sq. unfold s, sgn in *. destruct (blender c); lra.
Qed.
Lemma plane_sign d p : d <> vzero -> forall n, normalize d = Some n -> (0 <= dot n p <-> 0 <= dot d p).
Proof.
  intros N n E. destruct (normalize_inv _ _ E) as (_ & k & Hk & ->).
  replace (dot (vscale k d) p) with (k * dot d p) by (unfold dot, vscale; cbn; ring).
  split; intros; [|apply Rmult_le_pos; lra]. apply Rmult_le_reg_l with k; lra.
Qed.
(* the side of one plane, whether or not the plane is real *)
Definition passes (o : option vec3) (p : vec3) : Prop := forall n, o = Some n -> 0 <= dot n p.
Lemma passes_pos k d p e : 0 < k -> dot d p = k * e -> d <> vzero -> (passes (normalize d) p <-> 0 <= e).
Proof.
  intros Hk Ed N. destruct (normalize_some d N) as (m & Hm & En). rewrite En. unfold passes.
  assert (G : dot (vscale m d) p = m * k * e) by (replace (dot (vscale m d) p) with (m * dot d p) by (unfold dot, vscale; cbn; ring); rewrite Ed; ring).
  assert (0 < m * k) by nra. split.
  - intros H'. specialize (H' _ eq_refl). rewrite G in H'. apply Rmult_le_reg_l with (m * k); lra.
  - intros He n E. inversion E; subst. rewrite G. apply Rmult_le_pos; lra.
Qed.
Lemma normalize_zero : normalize vzero = None.
Proof. unfold normalize. destruct (Req_EM_T _ 0) as [|N]; auto. exfalso. apply N. unfold dot, vzero; cbn; ring. Qed.

Variable p : vec3.
Hypothesis Hz : 0 < depth (blender c) p.
Let q := project_point f g u v None (blender c) p.
Lemma depth_s : vz p = s * depth (blender c) p.
Proof. unfold depth, s, sgn. destruct (blender c); ring. Qed.
Lemma q_fst i : (IZR i <= fst q <-> 0 <= vx p - nx i * depth (blender c) p) /\ (fst q <= IZR i <-> 0 <= nx i * depth (blender c) p - vx p).
Proof.
  assert (E : fst q - IZR i = f / depth (blender c) p * (vx p - nx i * depth (blender c) p)).
  { unfold q, project_point, nx. cbn [fst snd]. fold (depth (blender c) p). field. lra. }
  assert (0 < f / depth (blender c) p) by (apply Rdiv_lt_0_compat; auto).
  pose proof (sign_scale _ _ _ _ H E) as G. rewrite Ropp_minus_distr in G. exact G.
Qed.
Lemma q_snd j : (IZR j <= snd q <-> 0 <= s * vy p - ny j * depth (blender c) p) /\ (snd q <= IZR j <-> 0 <= ny j * depth (blender c) p - s * vy p).
Proof.
  assert (E : snd q - IZR j = g / depth (blender c) p * (s * vy p - ny j * depth (blender c) p)).
  { unfold q, project_point, ny. cbn [fst snd]. fold (depth (blender c) p). fold (sgn (blender c)). fold s. field. lra. }
  assert (0 < g / depth (blender c) p) by (apply Rdiv_lt_0_compat; auto).
  pose proof (sign_scale _ _ _ _ H E) as G. rewrite Ropp_minus_distr in G. exact G.
Qed.

Lemma s_cases : s = 1 \/ s = -1. Proof. unfold s, sgn. destruct (blender c); auto. Qed.
Lemma top_plane l : l <> [] -> (passes (normalize (cross (ext (map (fun i => (i, 0%Z)) l)) xdir)) p <-> 0 <= snd q).
Proof.
  intros N. destruct (ext_row 0 l N) as (k & a & Hk & E). rewrite E. rewrite (proj1 (q_snd 0)).
  apply (passes_pos k); auto.
  - unfold cross, xdir, dot; cbn [vx vy vz]. rewrite depth_s. destruct s_cases as [-> | ->]; ring.
  - unfold cross, xdir, vzero; cbn [vx vy vz]. intros X; inversion X. destruct s_cases as [S|S]; rewrite S in *; nra.
Qed.
Lemma bottom_plane h l : l <> [] -> (passes (normalize (cross xdir (ext (map (fun i => (i, (h - 1)%Z)) l)))) p <-> snd q <= IZR (h - 1)).
Proof.
  intros N. destruct (ext_row (h - 1) l N) as (k & a & Hk & E). rewrite E. rewrite (proj2 (q_snd (h - 1))).
  apply (passes_pos k); auto.
  - unfold cross, xdir, dot; cbn [vx vy vz]. rewrite depth_s. destruct s_cases as [-> | ->]; ring.
  - unfold cross, xdir, vzero; cbn [vx vy vz]. intros X; inversion X. destruct s_cases as [S|S]; rewrite S in *; nra.
Qed.
Lemma left_plane l : l <> [] -> (passes (normalize (cross ydir (ext (map (fun j => (0%Z, j)) l)))) p <-> 0 <= fst q).
Proof.
  intros N. destruct (ext_col 0 l N) as (k & a & Hk & E). rewrite E, ydir_eq. rewrite (proj1 (q_fst 0)).
  apply (passes_pos k); auto.
  - unfold cross, dot; cbn [vx vy vz]. rewrite depth_s. destruct s_cases as [-> | ->]; ring.
  - unfold cross, vzero; cbn [vx vy vz]. intros X; inversion X. destruct s_cases as [S|S]; rewrite S in *; nra.
Qed.
Lemma right_plane w l : l <> [] -> (passes (normalize (cross (ext (map (fun j => ((w - 1)%Z, j)) l)) ydir)) p <-> fst q <= IZR (w - 1)).
Proof.
  intros N. destruct (ext_col (w - 1) l N) as (k & a & Hk & E). rewrite E, ydir_eq. rewrite (proj2 (q_fst (w - 1))).
  apply (passes_pos k); auto.
  - unfold cross, dot; cbn [vx vy vz]. rewrite depth_s. destruct s_cases as [-> | ->]; ring.
  - unfold cross, vzero; cbn [vx vy vz]. intros X; inversion X. destruct s_cases as [S|S]; rewrite S in *; nra.
Qed.
(* without candidates the extremum is the zero vector and the plane is NaN *)
Lemma cross_zero_l d : cross vzero d = vzero. Proof. unfold vzero; vring. Qed.
Lemma cross_zero_r d : cross d vzero = vzero. Proof. unfold vzero; vring. Qed.

Lemma frustum_passes : contains (real_planes (frustum_of sample c)) p = true <-> (forall o, In o (frustum_of sample c) -> passes o p).
Proof.
  rewrite contains_iff. unfold passes. split.
  - intros H o Hin n ->. apply H. apply real_planes_in; auto.
  - intros H n Hin. apply real_planes_in in Hin. apply (H _ Hin n eq_refl).
Qed.
Lemma front : passes (Some zdir) p.
Proof. intros n E. inversion E; subst. rewrite zdir_eq. unfold dot; cbn [vx vy vz]. rewrite depth_s. pose proof s_sq. nra. Qed.

Lemma frustum_exact : (1 <= res_x c)%Z -> (3 <= res_y c)%Z ->
  (contains (real_planes (frustum_of sample c)) p = true <-> between_pixels (res_x c) (res_y c) q).
Proof.
  intros Hw Hh. rewrite frustum_passes. unfold frustum_of. fold xdir ydir zdir. cbv zeta.
  repeat match goal with |- context [fst (scan _ _ ?l _)] => change (fst (scan (cast_dir sample c) zdir l (vzero, 100))) with (ext l) end.
  assert (N1 : zrange 0 (res_x c) <> []) by (apply zrange_nonempty; lia).
  assert (N2 : zrange 1 (res_y c - 1) <> []) by (apply zrange_nonempty; lia).
  pose proof (top_plane _ N1) as T. pose proof (bottom_plane (res_y c) _ N1) as B.
  pose proof (left_plane _ N2) as L. pose proof (right_plane (res_x c) _ N2) as Rr.
  unfold between_pixels. rewrite <- T, <- B, <- L, <- Rr. split.
  - intros H. repeat split; apply H; cbn [In]; tauto.
  - intros ((a & b) & (d & e)) o Hin. cbn [In] in Hin. pose proof front. intuition (subst; auto).
Qed.
Lemma frustum_keeps : between_pixels (res_x c) (res_y c) q -> (1 <= res_x c)%Z ->
  contains (real_planes (frustum_of sample c)) p = true.
Proof.
  intros ((a & b) & (d & e)) Hw. rewrite frustum_passes. unfold frustum_of. fold xdir ydir zdir. cbv zeta.
  repeat match goal with |- context [fst (scan _ _ ?l _)] => change (fst (scan (cast_dir sample c) zdir l (vzero, 100))) with (ext l) end.
  assert (N1 : zrange 0 (res_x c) <> []) by (apply zrange_nonempty; lia).
  pose proof (top_plane _ N1) as T. pose proof (bottom_plane (res_y c) _ N1) as B.
  assert (L : passes (normalize (cross ydir (ext (map (fun j => (0%Z, j)) (zrange 1 (res_y c - 1)))))) p
           /\ passes (normalize (cross (ext (map (fun j => ((res_x c - 1)%Z, j)) (zrange 1 (res_y c - 1)))) ydir)) p).
  { destruct (zrange 1 (res_y c - 1)) as [|x r] eqn:Er.
    - unfold ext. cbn [map scan fst]. rewrite cross_zero_l, cross_zero_r, normalize_zero. split; intros n X; discriminate.
    - assert (N2 : x :: r <> []) by congruence. pose proof (left_plane _ N2) as L1. pose proof (right_plane (res_x c) _ N2) as R1.
      split; [apply L1 | apply R1]; auto. }
  intros o Hin. cbn [In] in Hin. pose proof front. intuition (subst; auto).
Qed.
End FrustumExact.

(* ---- caches ---- *)
Section Caches.
Variable sample : image (option vec3) -> R -> R -> option vec3.
Lemma compute_fresh c : dist c = None -> fresh sample (compute_intrinsics sample c).
Proof.
  intros H. unfold fresh, compute_intrinsics. destruct (is_explicit c) eqn:E; cbn [set_rxy is_explicit]; rewrite E;
  (split; [reflexivity|]; split; [reflexivity|]; split; [cbn; congruence|]; split; reflexivity).
Qed.
Lemma compute_dist c : dist (compute_intrinsics sample c) = dist c.
Proof. unfold compute_intrinsics. destruct (is_explicit (set_rxy _ _ _)); reflexivity. Qed.
Lemma compute_blender c : blender (compute_intrinsics sample c) = blender c.
Proof. unfold compute_intrinsics. destruct (is_explicit (set_rxy _ _ _)); reflexivity. Qed.
Lemma thn_ok r k : snd (thn r k) = false -> snd r = false /\ thn r k = k (fst r).
Proof. unfold thn. destruct (snd r) eqn:E; intros H; [congruence|]. auto. Qed.
Lemma res_ok w h c : snd (sensor_set_resolution w h c) = false -> fst (sensor_set_resolution w h c) = set_res c w h /\ (0 <= w)%Z /\ (0 <= h)%Z.
Proof. unfold sensor_set_resolution. destruct ((w <? 0) || (h <? 0))%bool%Z eqn:E; cbn; [discriminate|]. intros _. split; auto. lia. Qed.
Lemma pitch_ok a b c : snd (sensor_set_pitch a b c) = false -> fst (sensor_set_pitch a b c) = set_pitch c a b.
Proof. unfold sensor_set_pitch. destruct (_ || _)%bool; cbn; [discriminate|]. auto. Qed.
Lemma size_ok a b c : snd (sensor_set_size a b c) = false ->
  fst (sensor_set_size a b c) = set_pitch c (fdiv a (Fin (IZR (res_x c)))) (fdiv b (Fin (IZR (res_y c)))).
Proof. unfold sensor_set_size. destruct (_ || _)%bool; cbn [fst snd]; [discriminate|]. apply pitch_ok. Qed.
Lemma finish_ok w h u v c : snd (finish_configure sample w h u v c) = false ->
  exists c', fst (finish_configure sample w h u v c) = compute_intrinsics sample c' /\ dist c' = dist c /\ blender c' = blender c.
Proof. unfold finish_configure. destruct (_ || _)%bool; cbn [fst snd]; [discriminate|]. intros _. eexists. split; [reflexivity|]. split; reflexivity. Qed.

(* a plain call that returns normally ends with compute_intrinsics_ *)
Lemma plain_computes k c : plain_call k -> snd (do_call sample k c) = false ->
  exists c', fst (do_call sample k c) = compute_intrinsics sample c' /\ dist c' = dist c /\ blender c' = blender c.
Proof.
  intros Hp. destruct k; cbn [plain_call] in Hp; try contradiction; cbn [do_call].
  - unfold set_focal_length. destruct (bad_length f); cbn [fst snd]; [discriminate|]. intros _. eexists; split; [reflexivity|]; split; reflexivity.
  - intros _. eexists; split; [reflexivity|]; split; reflexivity.
  - unfold configure_from_pitch. intros H. apply thn_ok in H as H1. destruct H1 as (Hr & E). rewrite E in H |- *.
    apply res_ok in Hr. destruct Hr as (Er & _). rewrite Er in *. apply thn_ok in H as H2. destruct H2 as (Hq & E2). rewrite E2 in H |- *.
    apply pitch_ok in Hq. rewrite Hq in *. apply finish_ok in H as (c' & A & B & C). exists c'. rewrite A, B, C. split; [|split]; reflexivity.
  - unfold configure_from_size. intros H. apply thn_ok in H as H1. destruct H1 as (Hr & E). rewrite E in H |- *.
    apply res_ok in Hr. destruct Hr as (Er & _). rewrite Er in *. apply thn_ok in H as H2. destruct H2 as (Hq & E2). rewrite E2 in H |- *.
    destruct height as [b|]; cbv beta iota zeta in Hq, H |- *; [apply size_ok in Hq | apply pitch_ok in Hq]; rewrite Hq in *;
    apply finish_ok in H as (c' & A & B & C); exists c'; rewrite A, B, C; (split; [|split]); reflexivity.
  - unfold set_intrinsics. intros H. apply thn_ok in H as H1. destruct H1 as (Hr & E). rewrite E in H |- *.
    apply res_ok in Hr. destruct Hr as (Er & _). rewrite Er in *. apply thn_ok in H as H2. destruct H2 as (Hq & E2). rewrite E2 in H |- *.
    apply pitch_ok in Hq. rewrite Hq in *. apply thn_ok in H as H3. destruct H3 as (Hs & E3). rewrite E3. apply size_ok in Hs. rewrite Hs.
    cbn [fst]. eexists; split; [reflexivity|]. split; reflexivity.
Qed.
Lemma plain_history l : forall c, fresh sample c -> dist c = None -> Forall plain_call l -> all_return sample l c ->
  fresh sample (run sample l c) /\ dist (run sample l c) = None.
Proof.
  induction l as [|k l IH]; intros c Hf Hd Hp Ha; [auto|]. inversion Hp; subst. destruct Ha as (Hk & Ha). cbn [run].
  destruct (plain_computes k c) as (c' & E & Ed & _); auto. rewrite Hd in Ed.
  apply IH; auto; rewrite E; [apply compute_fresh; auto | rewrite compute_dist; auto].
Qed.
Lemma camera0_fresh : fresh sample (camera0 sample).
Proof. apply compute_fresh. reflexivity. Qed.
End Caches.

(* ---- solid angles exist ---- *)
Lemma cross_perp_nonzero r p : dot r p = 0 -> r <> vzero -> p <> vzero -> cross r p <> vzero.
Proof.
  intros H Hr Hp E. assert (G : dot (cross r p) (cross r p) = dot r r * dot p p - dot r p * dot r p) by (unfold dot, cross; cbn; ring).
  rewrite E, H in G. replace (dot vzero vzero) with 0 in G by (unfold dot, vzero; cbn; ring).
  assert (Z : dot r r * dot p p = 0) by lra. apply Rmult_integral in Z as [Z|Z]; apply dot_zero in Z; contradiction.
Qed.
Lemma tangent_some p q : cross p q <> vzero -> exists t, tangent p q = Some t.
Proof.
  intros H. unfold tangent.
  assert (Hp : p <> vzero). { intros ->. apply H. unfold vzero. apply v3_eq; unfold cross; cbn; ring. }
  assert (E : cross p (vsub q p) = cross p q) by (apply v3_eq; unfold cross, vsub; cbn; ring).
  rewrite E. assert (N : cross (cross p q) p <> vzero).
  { apply cross_perp_nonzero; auto. unfold dot, cross; cbn; ring. }
  destruct (normalize_some _ N) as (k & _ & X). eauto.
Qed.

Lemma onorm_dir c f g u v q : fx c = Fin f -> fy c = Fin g -> cx c = Fin u -> cy c = Fin v -> f <> 0 -> g <> 0 -> dist c = None ->
  exists k, 0 < k /\ onorm (pix_dir c q) = Some (vscale k (pixel_to_direction f g u v None (blender c) q)).
Proof.
  intros Ef Eg Eu Ev Hf Hg Hd. unfold pix_dir. rewrite Ef, Eg, Eu, Ev, Hd.
  destruct (Req_EM_T f 0); [lra|]. destruct (Req_EM_T g 0); [lra|]. cbn [onorm]. apply normalize_some.
  unfold pixel_to_direction, vzero. destruct (blender c); intros X; inversion X; lra.
Qed.
Lemma dirs_not_parallel f g u v b p q k k' : f <> 0 -> g <> 0 -> 0 < k -> 0 < k' -> p <> q ->
  cross (vscale k (pixel_to_direction f g u v None b p)) (vscale k' (pixel_to_direction f g u v None b q)) <> vzero.
Proof.
  intros Hf Hg Hk Hk' N E. apply N. destruct p as [a c], q as [a' c'].
  assert (Hkk : 0 < k * k') by nra.
  unfold pixel_to_direction in E. cbn [fst snd] in E.
  assert (G : forall x y, k * k' * (x - y) = 0 -> x = y).
  { intros x y H. apply Rmult_integral in H as [H|H]; lra. }
  assert (D : forall x y w z, z <> 0 -> (x - w) / z = (y - w) / z -> x = y).
  { intros x y w z Hz H. apply (f_equal (fun t => t * z + w)) in H. unfold Rdiv in H. rewrite !Rmult_assoc, Rinv_l in H by auto. lra. }
  destruct b; unfold cross, vscale, vzero in E; cbn [vx vy vz] in E; injection E as E1 E2 E3; f_equal;
  [apply (D a a' u f Hf); apply G; lra | apply (D c c' v g Hg); apply G; lra | apply (D a a' u f Hf); apply G; lra | apply (D c c' v g Hg); apply G; lra].
Qed.
Lemma solid_some c f g u v x y : fx c = Fin f -> fy c = Fin g -> cx c = Fin u -> cy c = Fin v -> f <> 0 -> g <> 0 -> dist c = None ->
  exists a, pixel_solid_angle c x y = Some a.
Proof.
  intros Ef Eg Eu Ev Hf Hg Hd. unfold pixel_solid_angle.
  destruct (onorm_dir c f g u v (zpix x y) Ef Eg Eu Ev Hf Hg Hd) as (k0 & H0 & ->).
  destruct (onorm_dir c f g u v (zpix (x + 1) y) Ef Eg Eu Ev Hf Hg Hd) as (k1 & H1 & ->).
  destruct (onorm_dir c f g u v (zpix (x + 1) (y + 1)) Ef Eg Eu Ev Hf Hg Hd) as (k2 & H2 & ->).
  destruct (onorm_dir c f g u v (zpix x (y + 1)) Ef Eg Eu Ev Hf Hg Hd) as (k3 & H3 & ->).
  assert (P : forall a b a' b', (a, b) <> (a', b') -> zpix a b <> zpix a' b').
  { intros a b a' b' N E. apply N. unfold zpix in E. inversion E as [[E1 E2]]. apply eq_IZR in E1, E2. congruence. }
  assert (T : forall p q k k', 0 < k -> 0 < k' -> p <> q -> exists t,
    tangent (vscale k (pixel_to_direction f g u v None (blender c) p)) (vscale k' (pixel_to_direction f g u v None (blender c) q)) = Some t).
  { intros. apply tangent_some, dirs_not_parallel; auto. }
  assert (S : forall p q r k k' k'', 0 < k -> 0 < k' -> 0 < k'' -> p <> q -> p <> r -> q <> r -> exists a,
    triangle_solid_angle (vscale k (pixel_to_direction f g u v None (blender c) p))
      (vscale k' (pixel_to_direction f g u v None (blender c) q)) (vscale k'' (pixel_to_direction f g u v None (blender c) r)) = Some a).
  { intros p q r k k' k'' A B C N1 N2 N3. unfold triangle_solid_angle, corner_angle.
    destruct (T p q k k' A B N1) as (? & ->). destruct (T p r k k'' A C N2) as (? & ->).
    destruct (T q p k' k B A (not_eq_sym N1)) as (? & ->). destruct (T q r k' k'' B C N3) as (? & ->).
    destruct (T r p k'' k C A (not_eq_sym N2)) as (? & ->). destruct (T r q k'' k' C B (not_eq_sym N3)) as (? & ->). cbn [obind2]. eauto. }
  assert (Nx : (x + 1 <> x)%Z) by lia. assert (Ny : (y + 1 <> y)%Z) by lia.
  destruct (S (zpix x y) (zpix (x + 1) y) (zpix (x + 1) (y + 1)) k0 k1 k2) as (a & ->); auto; try (apply P; intros E; inversion E; lia).
  destruct (S (zpix x y) (zpix (x + 1) (y + 1)) (zpix x (y + 1)) k0 k2 k3) as (b & ->); auto; try (apply P; intros E; inversion E; lia).
  cbn [obind2]. eauto.
Qed.
