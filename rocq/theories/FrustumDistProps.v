(* C22 for cameras with lens distortion. *)
From Coq Require Import ZArith Lia.
From Verif Require ImageModel ImageProofs.
From Verif Require Import Vec3 DistortionModel FrustumModel CameraModel CameraSpec CameraProofs.

(** ** Specification *)
(* the sampler returns a stored pixel at that pixel's position, in images of at least 2 x 2 pixels without NaN *)
Definition hits (sample : image (option vec3) -> R -> R -> option vec3) : Prop :=
  forall im x y, (2 <= iw im)%Z -> (2 <= ih im)%Z -> (forall i j, ipix im i j <> None) -> (0 <= x < iw im)%Z -> (0 <= y < ih im)%Z -> sample im (IZR x / IZR (iw im - 1)) (IZR y / IZR (ih im - 1)) = ipix im x y.
(* a camera with finite intrinsics, distortion d and up-to-date caches *)
Record lens (sample : image (option vec3) -> R -> R -> option vec3) (c : camera) (d : distortion) (f g u v : R) : Prop := Lens {
  l_fx : fx c = Fin f; l_fy : fy c = Fin g; l_cx : cx c = Fin u; l_cy : cy c = Fin v; l_f : 0 < f; l_g : 0 < g; l_dist : dist c = Some d;
  l_rx : rx c = res_x c; l_ry : ry c = res_y c; l_field : field c = field_of c; l_frustum : frustum c = frustum_of sample c }.
(* where pixel (i, j) looks, as x/z and y/z in the camera's axes with y downwards *)
Definition ideal (f g u v : R) (i j : Z) : pixel := ((IZR i - u) / f, (IZR j - v) / g).
Definition looks (d : distortion) (f g u v : R) (i j : Z) : pixel := d_undistort d (ideal f g u v i j).
(* where a point in front of the camera is *)
Definition seen_at (blender : bool) (p : vec3) : pixel := (vx p / depth blender p, (if blender then - vy p else vy p) / depth blender p).
Definition norm2 (n : pixel) : R := fst n * fst n + snd n * snd n.

(** ** the pixel of widest angle *)
Lemma scan_source dir z pts : forall s,
  (forall i j, In (i, j) pts -> exists d, dir i j = Some d) -> snd s = dot (fst s) z ->
  let r := scan dir z pts s in snd r = dot (fst r) z /\ snd r <= snd s /\ (fst r = fst s \/ exists i j, In (i, j) pts /\ dir i j = Some (fst r)) /\ forall i j d, In (i, j) pts -> dir i j = Some d -> snd r <= dot d z.
Proof.
  induction pts as [|[i j] r IH]; intros s H E; cbn [scan].
  - split; [auto|]. split; [lra|]. split; [auto|]. intros i j d [].
  - destruct (H i j) as (d & Ed); [left; auto|]. rewrite Ed.
    set (s' := if Rltb (dot d z) (snd s) then (d, dot d z) else s).
    assert (E' : snd s' = dot (fst s') z) by (unfold s'; destruct (Rltb _ _); auto).
    assert (L : snd s' <= snd s /\ snd s' <= dot d z) by (unfold s'; destruct (Rltb (dot d z) (snd s)) eqn:Q; [apply Rltb_true in Q|apply Rltb_false in Q]; cbn; lra).
    destruct (IH s') as (A & B & C & D); [intros; apply H; right; auto|auto|]. cbv zeta. split; [auto|]. split; [lra|]. split.
    + destruct C as [C|(i' & j' & I & C)]; [|right; exists i', j'; split; [right|]; auto]. unfold s' in C |- *. destruct (Rltb _ _); [right|left; auto]. exists i, j. split; [left; auto|]. rewrite Ed, C. reflexivity.
    + intros i' j' d' [Q|Q] Ed'; [|eauto]. injection Q as <- <-. rewrite Ed in Ed'. injection Ed' as <-. lra.
Qed.
Lemma scan_widest dir z pts : pts <> [] -> (forall i j, In (i, j) pts -> exists d, dir i j = Some d /\ dot d z < 100) ->
  exists i j, In (i, j) pts /\ dir i j = Some (fst (scan dir z pts (vzero, 100))) /\ forall i' j' d', In (i', j') pts -> dir i' j' = Some d' -> dot (fst (scan dir z pts (vzero, 100))) z <= dot d' z.
Proof.
  destruct pts as [|[i j] r]; intros N H; [congruence|]. cbn [scan]. destruct (H i j) as (d & Ed & L); [left; auto|]. rewrite Ed. cbn [snd].
  replace (Rltb (dot d z) 100) with true by (symmetry; apply Rltb_true; auto). cbv iota.
  destruct (scan_source dir z r (d, dot d z)) as (A & B & C & D); [intros i' j' I; destruct (H i' j') as (d' & E' & _); [right; auto|eauto]|reflexivity|]. cbv zeta in *. cbn [fst snd] in *.
  destruct C as [C|(i' & j' & I & C)].
  - exists i, j. split; [left; auto|]. split; [rewrite Ed, C; auto|]. intros i' j' d' [Q|Q] E'; [injection Q as <- <-; rewrite Ed in E'; injection E' as <-; lra|]. rewrite <- A. eauto.
  - exists i', j'. split; [right; auto|]. split; [auto|]. intros i2 j2 d2 [Q|Q] E2; [injection Q as <- <-; rewrite Ed in E2; injection E2 as <-; lra|]. rewrite <- A. eauto.
Qed.

Section Distorted.
Variables (sample : image (option vec3) -> R -> R -> option vec3) (c : camera) (d : distortion) (f g u v : R).
Hypothesis (HS : hits sample) (HL : lens sample c d f g u v) (Hw2 : (2 <= res_x c)%Z) (Hh2 : (2 <= res_y c)%Z).
Let s := sgn (blender c).
Let w := res_x c.
Let h := res_y c.
Let U := looks d f g u v.
Let zdir := if blender c then V3 0 0 (-1) else V3 0 0 1.
Let ydir := if blender c then V3 0 (-1) 0 else V3 0 1 0.
Let xdir := V3 1 0 0.
Lemma ds_cases : s = 1 \/ s = -1. Proof. unfold s, sgn. destruct (blender c); auto. Qed.
Lemma dzdir : zdir = V3 0 0 s. Proof. unfold zdir, s, sgn. destruct (blender c); reflexivity. Qed.
Lemma dydir : ydir = V3 0 s 0. Proof. unfold ydir, s, sgn. destruct (blender c); reflexivity. Qed.

Lemma dcast i j : (0 <= i < w)%Z -> (0 <= j < h)%Z -> exists k, 0 < k /\ k * k * (1 + norm2 (U i j)) = 1 /\
  cast_dir sample c i j = Some (V3 (k * fst (U i j)) (k * (s * snd (U i j))) (k * s)).
Proof.
  intros Hi Hj. destruct HL as [E1 E2 E3 E4 Hf Hg Ed Ex Ey Ef _]. unfold cast_dir. rewrite Ed, Ef, Ex, Ey.
  assert (NN : forall i j, ipix (field_of c) i j <> None).
  { intros i' j'. cbn [field_of ipix]. unfold pix_dir. rewrite E1, E2, E3, E4, Ed. destruct (Req_EM_T f 0); [lra|]. destruct (Req_EM_T g 0); [lra|]. cbn [onorm].
    assert (ND : pixel_to_direction f g u v (Some d) (blender c) (zpix i' j') <> vzero) by (unfold pixel_to_direction, vzero; destruct (blender c); intros X; injection X; intros; lra).
    destruct (normalize_some _ ND) as (k1 & K1 & N1). rewrite N1. discriminate. }
  pose proof (HS (field_of c) i j Hw2 Hh2 NN Hi Hj) as Q. cbn [iw ih field_of ipix] in Q. change (Build_image _ _ _) with (field_of c) in Q. rewrite Q.
  unfold pix_dir. rewrite E1, E2, E3, E4, Ed. destruct (Req_EM_T f 0); [lra|]. destruct (Req_EM_T g 0); [lra|]. cbn [onorm].
  set (D := pixel_to_direction f g u v (Some d) (blender c) (zpix i j)).
  assert (ED : D = V3 (fst (U i j)) (s * snd (U i j)) s).
  { unfold D, s, sgn, pixel_to_direction, U, looks, ideal, zpix. cbn [fst snd]. destruct (blender c); f_equal; ring. }
  assert (ND : D <> vzero). { rewrite ED. unfold vzero. destruct ds_cases as [S|S]; rewrite S; intros X; inversion X; lra. }
  destruct (normalize_some D ND) as (k1 & K1 & N1). rewrite N1. cbn [onorm].
  assert (N1' : vscale k1 D <> vzero). { intros X. apply normalize_unit in N1. rewrite X in N1. unfold dot, vzero in N1. cbn in N1. lra. }
  destruct (normalize_some _ N1') as (k2 & K2 & N2). rewrite N2. exists (k2 * k1). split; [nra|]. apply normalize_unit in N2. rewrite ED in *. unfold vscale in *. cbn [vx vy vz] in *. split.
  - etransitivity; [|exact N2]. unfold dot, norm2. cbn [vx vy vz]. destruct ds_cases as [S|S]; rewrite S; ring.
  - do 2 f_equal; ring.
Qed.
Let ext pts := fst (scan (cast_dir sample c) zdir pts (vzero, 100)).
(* on a list of pixels of the image, the extremum is the direction of one of widest angle *)
Lemma ext_widest pts : pts <> [] -> (forall i j, In (i, j) pts -> (0 <= i < w)%Z /\ (0 <= j < h)%Z) ->
  exists i j k, In (i, j) pts /\ 0 < k /\ ext pts = V3 (k * fst (U i j)) (k * (s * snd (U i j))) (k * s) /\ forall i' j', In (i', j') pts -> norm2 (U i' j') <= norm2 (U i j).
Proof.
  intros N R. destruct (scan_widest (cast_dir sample c) zdir pts N) as (i & j & I & E & M).
  { intros i j I. destruct (R i j I) as [Ri Rj]. destruct (dcast i j Ri Rj) as (k & K & KK & E). eexists. split; [exact E|]. rewrite dzdir. unfold dot; cbn [vx vy vz].
    assert (0 <= norm2 (U i j)) by (unfold norm2; nra). assert (k <= 1) by nra. destruct ds_cases as [S|S]; rewrite S; lra. }
  fold (ext pts) in *. destruct (R i j I) as [Ri Rj]. destruct (dcast i j Ri Rj) as (k & K & KK & Ec). rewrite E in Ec. injection Ec as Ec.
  exists i, j, k. split; [auto|]. split; [auto|]. split; [exact Ec|]. intros i' j' I'. destruct (R i' j' I') as [Ri' Rj']. destruct (dcast i' j' Ri' Rj') as (k' & K' & KK' & E').
  specialize (M _ _ _ I' E'). rewrite Ec, dzdir in M. unfold dot in M; cbn [vx vy vz] in M.
  assert (kk : k <= k'). { destruct ds_cases as [S|S]; rewrite S in M; lra. }
  assert (0 <= norm2 (U i' j')) by (unfold norm2; nra). assert (0 <= norm2 (U i j)) by (unfold norm2; nra).
  assert (k * k <= k' * k') by nra. apply Rnot_lt_le. intros LT.
  set (A := norm2 (U i j)) in *. set (B := norm2 (U i' j')) in *. assert (k * k * (1 + A) <= k' * k' * (1 + A)) by (apply Rmult_le_compat_r; lra). assert (0 < k' * k') by nra. assert (k' * k' * (1 + A) < k' * k' * (1 + B)) by (apply Rmult_lt_compat_l; lra). lra.
Qed.

Variable p : vec3.
Hypothesis Hz : 0 < depth (blender c) p.
Let q := seen_at (blender c) p.
Lemma q_x a : (a <= fst q <-> 0 <= vx p - a * depth (blender c) p) /\ (fst q <= a <-> 0 <= a * depth (blender c) p - vx p).
Proof.
  unfold q, seen_at; cbn [fst snd]. set (z := depth (blender c) p) in *. assert (E : vx p / z * z = vx p) by (field; lra). split; split; intros H; nra.
Qed.
Lemma q_y a : (a <= snd q <-> 0 <= s * vy p - a * depth (blender c) p) /\ (snd q <= a <-> 0 <= a * depth (blender c) p - s * vy p).
Proof.
  unfold q, seen_at; cbn [fst snd]. set (z := depth (blender c) p) in *. set (y := if blender c then - vy p else vy p). assert (Y : s * vy p = y) by (unfold s, sgn, y; destruct (blender c); ring). rewrite Y.
  assert (E : y / z * z = y) by (field; lra). split; split; intros H; nra.
Qed.
Lemma dvz : vz p = s * depth (blender c) p. Proof. unfold depth, s, sgn. destruct (blender c); ring. Qed.
Ltac side k := apply (passes_pos k); auto; [unfold cross, xdir, dot; cbn [vx vy vz]; rewrite dvz; destruct ds_cases as [S|S]; rewrite S; ring
  |unfold cross, xdir, vzero; cbn [vx vy vz]; intros X; inversion X; destruct ds_cases as [S|S]; rewrite S in *; nra].
Lemma side_top k a b : 0 < k -> passes (normalize (cross (V3 a (k * (s * b)) (k * s)) xdir)) p <-> b <= snd q.
Proof. intros K. rewrite (proj1 (q_y b)). side k. Qed.
Lemma side_bottom k a b : 0 < k -> passes (normalize (cross xdir (V3 a (k * (s * b)) (k * s)))) p <-> snd q <= b.
Proof. intros K. rewrite (proj2 (q_y b)). side k. Qed.
Lemma side_left k a b : 0 < k -> passes (normalize (cross ydir (V3 (k * a) b (k * s)))) p <-> a <= fst q.
Proof. intros K. rewrite (proj1 (q_x a)). rewrite dydir. side k. Qed.
Lemma side_right k a b : 0 < k -> passes (normalize (cross (V3 (k * a) b (k * s)) ydir)) p <-> fst q <= a.
Proof. intros K. rewrite (proj2 (q_x a)). rewrite dydir. side k. Qed.
End Distorted.

(* one pixel of each edge decides: those of widest angle. The left and right edges are searched without the corners *)
Theorem C22_distorted_exact_partial : forall sample c d f g u v, hits sample -> lens sample c d f g u v -> (2 <= res_x c)%Z -> (3 <= res_y c)%Z ->
  let w := res_x c in let h := res_y c in let U := looks d f g u v in
  exists jl jr it ib, (1 <= jl < h - 1)%Z /\ (1 <= jr < h - 1)%Z /\ (0 <= it < w)%Z /\ (0 <= ib < w)%Z /\
    (forall j, (1 <= j < h - 1)%Z -> norm2 (U 0%Z j) <= norm2 (U 0%Z jl)) /\ (forall j, (1 <= j < h - 1)%Z -> norm2 (U (w - 1)%Z j) <= norm2 (U (w - 1)%Z jr)) /\
    (forall i, (0 <= i < w)%Z -> norm2 (U i 0%Z) <= norm2 (U it 0%Z)) /\ (forall i, (0 <= i < w)%Z -> norm2 (U i (h - 1)%Z) <= norm2 (U ib (h - 1)%Z)) /\
    forall p, 0 < depth (blender c) p -> / 1000000000000 <= dot p p ->
      (in_fov c p = true <-> fst (U 0%Z jl) <= fst (seen_at (blender c) p) <= fst (U (w - 1)%Z jr) /\ snd (U it 0%Z) <= snd (seen_at (blender c) p) <= snd (U ib (h - 1)%Z)).
Proof.
  intros sample c d f g u v HS HL Hw Hh w h U.
  pose proof (ext_widest sample c d f g u v HS HL Hw ltac:(lia)) as X. cbv zeta in X. fold w h U in X.
  assert (N1 : zrange 0 w <> []) by (apply zrange_nonempty; lia). assert (N2 : zrange 1 (h - 1) <> []) by (apply zrange_nonempty; unfold h; lia).
  assert (MN : forall (A B : Type) (k : A -> B) l, l <> [] -> map k l <> []) by (intros A B k [|x r] Z; cbn; congruence).
  destruct (X (map (fun j => (0%Z, j)) (zrange 1 (h - 1)))) as (i1 & jl & kl & I1 & K1 & E1 & M1); [auto|intros i j I; apply in_map_iff in I as (j' & Q & I); injection Q as <- <-; apply zrange_in in I; unfold w; lia|].
  destruct (X (map (fun j => ((w - 1)%Z, j)) (zrange 1 (h - 1)))) as (i2 & jr & kr & I2 & K2 & E2 & M2); [auto|intros i j I; apply in_map_iff in I as (j' & Q & I); injection Q as <- <-; apply zrange_in in I; unfold w; lia|].
  destruct (X (map (fun i => (i, 0%Z)) (zrange 0 w))) as (it & j3 & kt & I3 & K3 & E3 & M3); [auto|intros i j I; apply in_map_iff in I as (j' & Q & I); injection Q as <- <-; apply zrange_in in I; unfold h; lia|].
  destruct (X (map (fun i => (i, (h - 1)%Z)) (zrange 0 w))) as (ib & j4 & kb & I4 & K4 & E4 & M4); [auto|intros i j I; apply in_map_iff in I as (j' & Q & I); injection Q as <- <-; apply zrange_in in I; unfold h; lia|].
  clear X. apply in_map_iff in I1 as (? & Q & I1); injection Q as <- ->. apply in_map_iff in I2 as (? & Q & I2); injection Q as <- ->.
  apply in_map_iff in I3 as (? & Q & I3); injection Q as -> <-. apply in_map_iff in I4 as (? & Q & I4); injection Q as -> <-.
  exists jl, jr, it, ib. apply zrange_in in I1, I2, I3, I4. split; [lia|]. split; [lia|]. split; [lia|]. split; [lia|].
  split; [intros j J; apply M1, in_map_iff; exists j; split; [auto|apply zrange_in; lia]|].
  split; [intros j J; apply M2, in_map_iff; exists j; split; [auto|apply zrange_in; lia]|].
  split; [intros j J; apply M3, in_map_iff; exists j; split; [auto|apply zrange_in; lia]|].
  split; [intros j J; apply M4, in_map_iff; exists j; split; [auto|apply zrange_in; lia]|].
  intros p Hz Hp. unfold in_fov. replace (Rltb (dot p p) (/ 1000000000000)) with false by (symmetry; apply Rltb_false; auto). rewrite (l_frustum _ _ _ _ _ _ _ HL).
  rewrite frustum_passes. unfold frustum_of. cbv zeta. fold w h. unfold w, h in E1, E2, E3, E4. fold w h in E1, E2, E3, E4. rewrite E1, E2, E3, E4.
  pose proof (side_left sample c p Hz kl (fst (U 0%Z jl)) (kl * (sgn (blender c) * snd (U 0%Z jl))) K1) as S1. pose proof (side_right sample c p Hz kr (fst (U (w - 1)%Z jr)) (kr * (sgn (blender c) * snd (U (w - 1)%Z jr))) K2) as S2.
  pose proof (side_top sample c p Hz kt (kt * fst (U it 0%Z)) (snd (U it 0%Z)) K3) as S3. pose proof (side_bottom sample c p Hz kb (kb * fst (U ib (h - 1)%Z)) (snd (U ib (h - 1)%Z)) K4) as S4.
  rewrite <- S1, <- S2, <- S3, <- S4. split.
  - intros H. split; [split|split]; apply H; cbn [In]; auto 6.
  - intros ((a & b) & (e & e')) o Hin. cbn [In] in Hin. assert (F : passes (Some (if blender c then V3 0 0 (-1) else V3 0 0 1)) p).
    { intros n Q. injection Q as <-. unfold dot, depth in *. destruct (blender c); cbn [vx vy vz]; lra. }
    intuition (subst; auto).
Qed.

(** ** radial distortions *)
(* a point on the ray that pixel (i, j) looks along *)
Definition on_ray (blender : bool) (n : pixel) (t : R) : vec3 := let s := sgn blender in V3 (t * fst n) (t * (s * snd n)) (t * s).
Lemma on_ray_seen b n t : 0 < t -> depth b (on_ray b n t) = t /\ seen_at b (on_ray b n t) = n.
Proof.
  intros T. assert (D : depth b (on_ray b n t) = t) by (unfold depth, on_ray, sgn; destruct b; cbn [vz]; ring). split; [auto|]. unfold seen_at. rewrite D. destruct n as [x y].
  unfold on_ray, sgn; destruct b; cbn [vx vy fst snd]; f_equal; field; lra.
Qed.
Lemma on_ray_long b n t : 1 <= t -> / 1000000000000 <= dot (on_ray b n t) (on_ray b n t).
Proof.
  intros T. unfold dot, on_ray; cbn [vx vy vz]. set (s := sgn b). assert (s * s = 1) by (unfold s, sgn; destruct b; ring).
  replace (t * fst n * (t * fst n) + t * (s * snd n) * (t * (s * snd n)) + t * s * (t * s)) with (t * t * (fst n * fst n + (s * s) * (snd n * snd n) + s * s)) by ring. rewrite H.
  assert (1 <= t * t) by nra. assert (0 <= fst n * fst n) by nra. assert (0 <= snd n * snd n) by nra. nra.
Qed.
(* the lens moves every point along its radius, by the factor k *)
Definition radial (d : distortion) (k : pixel -> R) : Prop := forall n, d_undistort d n = pscale (k n) n /\ 0 < k n.
(* barrel: the farther out, the larger the factor from image to ray; pincushion: the smaller, but points farther out still look farther out *)
Definition barrel (d : distortion) : Prop := exists k, radial d k /\ forall n m, norm2 n < norm2 m -> k n < k m.
Definition pincushion (d : distortion) : Prop := exists k, radial d k /\ forall n m, norm2 n < norm2 m -> k m < k n /\ norm2 (d_undistort d n) < norm2 (d_undistort d m).

Lemma farther f g u v j j' : 0 < g -> (IZR j - v) * (IZR j - v) < (IZR j' - v) * (IZR j' - v) -> norm2 (ideal f g u v 0 j) < norm2 (ideal f g u v 0 j').
Proof.
  intros G H. unfold norm2, ideal; cbn [fst snd]. apply Rplus_lt_compat_l.
  replace ((IZR j - v) / g * ((IZR j - v) / g)) with ((IZR j - v) * (IZR j - v) * (/ g * / g)) by (field; lra). replace ((IZR j' - v) / g * ((IZR j' - v) / g)) with ((IZR j' - v) * (IZR j' - v) * (/ g * / g)) by (field; lra).
  apply Rmult_lt_compat_r; auto. assert (0 < / g) by (apply Rinv_0_lt_compat; auto). nra.
Qed.
(* every barrel lens with the principal point inside the image culls everything a left corner pixel looks at (which corner depends on the principal point; the default one is (0, 0)) *)
Theorem C22_refuted_barrel : forall sample c d f g u v, hits sample -> lens sample c d f g u v -> barrel d -> (2 <= res_x c)%Z -> (3 <= res_y c)%Z -> 0 < u ->
  exists j, (j = 0%Z \/ j = (res_y c - 1)%Z) /\ (IZR (res_y c - 1) <= 2 * v -> j = 0%Z) /\
  forall t, 1 <= t -> in_fov c (on_ray (blender c) (looks d f g u v 0 j) t) = false.
Proof.
  intros sample c d f g u v HS HL (k & RD & KM) Hw Hh Hu. destruct (C22_distorted_exact_partial sample c d f g u v HS HL Hw Hh) as (jl & jr & it & ib & Jl & _ & _ & _ & _ & _ & _ & _ & X). cbv zeta in X.
  destruct HL as [_ _ _ _ Hf Hg _ _ _ _ _].
  assert (NX : (IZR 0 - u) / f < 0). { replace ((IZR 0 - u) / f) with (- (u / f)) by (field; lra). assert (0 < u / f) by (apply Rdiv_lt_0_compat; lra). lra. }
  assert (C : forall j, norm2 (ideal f g u v 0 jl) < norm2 (ideal f g u v 0 j) -> forall t, 1 <= t -> in_fov c (on_ray (blender c) (looks d f g u v 0 j) t) = false).
  { intros j N t T. destruct (in_fov c _) eqn:E; [exfalso|reflexivity]. destruct (on_ray_seen (blender c) (looks d f g u v 0 j) t) as [D S]; [lra|].
    apply X in E; [|rewrite D; lra|apply on_ray_long; auto]. rewrite S in E. destruct E as ((E & _) & _). unfold looks in E. destruct (RD (ideal f g u v 0 jl)) as [R1 _]. destruct (RD (ideal f g u v 0 j)) as [R2 _].
    rewrite R1, R2 in E. unfold pscale in E; cbn [fst] in E. specialize (KM _ _ N). unfold ideal in E at 2 4; cbn [fst] in E. nra. }
  assert (BJ : 1 <= IZR jl <= IZR (res_y c - 1) - 1). { split; [apply IZR_le; lia|]. rewrite <- minus_IZR. apply IZR_le. lia. }
  destruct (Rle_lt_dec (IZR (res_y c - 1)) (2 * v)) as [V|V].
  - exists 0%Z. split; [auto|]. split; [auto|]. apply C, farther; auto. nra.
  - exists (res_y c - 1)%Z. split; [auto|]. split; [intros; lra|]. apply C, farther; auto. nra.
Qed.
(* every pincushion lens culls everything that the left column looks at in rows nearer to the principal point than some other row *)
Theorem C22_refuted_pincushion : forall sample c d f g u v j j', hits sample -> lens sample c d f g u v -> pincushion d -> (2 <= res_x c)%Z -> (3 <= res_y c)%Z -> 0 < u ->
  (1 <= j' < res_y c - 1)%Z -> Rabs (IZR j - v) < Rabs (IZR j' - v) -> forall t, 1 <= t -> in_fov c (on_ray (blender c) (looks d f g u v 0 j) t) = false.
Proof.
  intros sample c d f g u v j j' HS HL (k & RD & KM) Hw Hh Hu J A t T. destruct (C22_distorted_exact_partial sample c d f g u v HS HL Hw Hh) as (jl & jr & it & ib & Jl & _ & _ & _ & W & _ & _ & _ & X). cbv zeta in X, W.
  destruct HL as [_ _ _ _ Hf Hg _ _ _ _ _].
  assert (NX : (IZR 0 - u) / f < 0). { replace ((IZR 0 - u) / f) with (- (u / f)) by (field; lra). assert (0 < u / f) by (apply Rdiv_lt_0_compat; lra). lra. }
  assert (N1 : norm2 (ideal f g u v 0 j) < norm2 (ideal f g u v 0 j')). { apply farther; auto. apply Rsqr_lt_abs_1 in A. exact A. }
  assert (N2 : norm2 (ideal f g u v 0 j') <= norm2 (ideal f g u v 0 jl)). { apply Rnot_lt_le. intros N. specialize (W _ J). destruct (KM _ _ N) as [_ K2]. unfold looks in W. lra. }
  destruct (in_fov c _) eqn:E; [exfalso|reflexivity]. destruct (on_ray_seen (blender c) (looks d f g u v 0 j) t) as [D S]; [lra|].
  apply X in E; [|rewrite D; lra|apply on_ray_long; auto]. rewrite S in E. destruct E as ((E & _) & _). unfold looks in E. destruct (RD (ideal f g u v 0 jl)) as [R1 _]. destruct (RD (ideal f g u v 0 j)) as [R2 _].
  rewrite R1, R2 in E. unfold pscale in E; cbn [fst] in E. assert (N : norm2 (ideal f g u v 0 j) < norm2 (ideal f g u v 0 jl)) by lra. destruct (KM _ _ N) as [K _]. unfold ideal in E at 2 4; cbn [fst] in E. nra.
Qed.

(** ** the lenses of huira *)
(* Brown's model with radial terms k1, k2, k3 <= 0, not all zero, is a barrel, for every tolerance and at least one iteration, as computed *)
Section BrownBarrel.
Variables (K1 K2 K3 tol : R).
Hypothesis (H1 : 0 <= K1) (H2 : 0 <= K2) (H3 : 0 <= K3) (HP : 0 < K1 + K2 + K3).
Definition phi (rho a : R) : R := 1 + (K1 * rho * a ^ 3 + K2 * rho ^ 2 * a ^ 5 + K3 * rho ^ 3 * a ^ 7).
Fixpoint factor (n : nat) (rho a : R) : R := match n with O => a | S m => let a' := phi rho a in if Rltb ((a' - a) * (a' - a) * rho) tol then a' else factor m rho a' end.
Lemma pow_gap n : forall a1 a2 d1 d2, 0 <= a1 <= a2 -> 0 <= d1 <= d2 -> 0 <= (a1 + d1) ^ n - a1 ^ n <= (a2 + d2) ^ n - a2 ^ n.
Proof.
  induction n as [|n IH]; intros a1 a2 d1 d2 A D; [cbn; lra|]. destruct (IH a1 a2 d1 d2 A D) as [G0 G]. cbn [pow].
  replace ((a1 + d1) * (a1 + d1) ^ n - a1 * a1 ^ n) with ((a1 + d1) * ((a1 + d1) ^ n - a1 ^ n) + d1 * a1 ^ n) by ring.
  replace ((a2 + d2) * (a2 + d2) ^ n - a2 * a2 ^ n) with ((a2 + d2) * ((a2 + d2) ^ n - a2 ^ n) + d2 * a2 ^ n) by ring.
  assert (0 <= a1 ^ n) by (apply pow_le; lra). assert (a1 ^ n <= a2 ^ n) by (apply pow_incr; lra).
  set (x1 := (a1 + d1) ^ n - a1 ^ n) in *. set (x2 := (a2 + d2) ^ n - a2 ^ n) in *. set (y1 := a1 ^ n) in *. set (y2 := a2 ^ n) in *. clearbody x1 x2 y1 y2.
  assert ((a1 + d1) * x1 <= (a2 + d2) * x2) by (apply Rmult_le_compat; lra). assert (d1 * y1 <= d2 * y2) by (apply Rmult_le_compat; lra). assert (0 <= (a1 + d1) * x1) by (apply Rmult_le_pos; lra). assert (0 <= d1 * y1) by (apply Rmult_le_pos; lra). lra.
Qed.
Lemma term_gap C e n r1 r2 a1 a2 d1 d2 : 0 <= C -> 0 <= r1 <= r2 -> 0 <= a1 <= a2 -> 0 <= d1 <= d2 -> 0 <= C * r1 ^ e * (a1 + d1) ^ n - C * r1 ^ e * a1 ^ n <= C * r2 ^ e * (a2 + d2) ^ n - C * r2 ^ e * a2 ^ n.
Proof.
  intros HC HR HA HD. destruct (pow_gap n a1 a2 d1 d2 HA HD) as [G0 G]. assert (0 <= r1 ^ e) by (apply pow_le; lra). assert (r1 ^ e <= r2 ^ e) by (apply pow_incr; lra).
  replace (C * r1 ^ e * (a1 + d1) ^ n - C * r1 ^ e * a1 ^ n) with (C * r1 ^ e * ((a1 + d1) ^ n - a1 ^ n)) by ring. replace (C * r2 ^ e * (a2 + d2) ^ n - C * r2 ^ e * a2 ^ n) with (C * r2 ^ e * ((a2 + d2) ^ n - a2 ^ n)) by ring.
  assert (0 <= C * r1 ^ e) by (apply Rmult_le_pos; lra). assert (C * r1 ^ e <= C * r2 ^ e) by (apply Rmult_le_compat_l; lra). split; [apply Rmult_le_pos; lra|apply Rmult_le_compat; lra].
Qed.
Lemma phi_gap r1 r2 a1 a2 d1 d2 : 0 <= r1 <= r2 -> 0 <= a1 <= a2 -> 0 <= d1 <= d2 -> 0 <= phi r1 (a1 + d1) - phi r1 a1 <= phi r2 (a2 + d2) - phi r2 a2.
Proof.
  intros HR HA HD. pose proof (term_gap K1 1 3 r1 r2 a1 a2 d1 d2 H1 HR HA HD) as T1. pose proof (term_gap K2 2 5 r1 r2 a1 a2 d1 d2 H2 HR HA HD) as T2. pose proof (term_gap K3 3 7 r1 r2 a1 a2 d1 d2 H3 HR HA HD) as T3.
  unfold phi. rewrite !pow_1 in T1. lra.
Qed.
Lemma phi_ge1 r a : 0 <= r -> 0 <= a -> 1 <= phi r a.
Proof. intros. unfold phi. assert (0 <= K1 * r * a ^ 3) by (apply Rmult_le_pos; [nra|apply pow_le; auto]). assert (0 <= K2 * r ^ 2 * a ^ 5) by (apply Rmult_le_pos; [apply Rmult_le_pos|]; auto; apply pow_le; auto). assert (0 <= K3 * r ^ 3 * a ^ 7) by (apply Rmult_le_pos; [apply Rmult_le_pos|]; auto; apply pow_le; auto). lra. Qed.
Lemma term_lt C e n r1 r2 a1 a2 : 0 <= C -> 0 <= r1 < r2 -> 1 <= a1 <= a2 -> (1 <= e)%nat -> C * r1 ^ e * a1 ^ n <= C * r2 ^ e * a2 ^ n /\ (0 < C -> C * r1 ^ e * a1 ^ n < C * r2 ^ e * a2 ^ n).
Proof.
  intros HC HR HA HE. assert (0 <= r1 ^ e) by (apply pow_le; lra). assert (P1 : 1 <= a1 ^ n) by (apply pow_R1_Rle; lra). assert (P2 : a1 ^ n <= a2 ^ n) by (apply pow_incr; lra).
  assert (R1 : r1 ^ e < r2 ^ e). { destruct e as [|e]; [lia|]. cbn [pow]. assert (r1 ^ e <= r2 ^ e) by (apply pow_incr; lra). assert (0 < r2 ^ e) by (apply pow_lt; lra). assert (0 <= r1 ^ e) by (apply pow_le; lra). nra. }
  assert (S : r1 ^ e * a1 ^ n < r2 ^ e * a2 ^ n). { assert (r1 ^ e * a1 ^ n <= r1 ^ e * a2 ^ n) by (apply Rmult_le_compat_l; lra). assert (r1 ^ e * a2 ^ n < r2 ^ e * a2 ^ n) by (apply Rmult_lt_compat_r; lra). lra. } split; [rewrite !Rmult_assoc; apply Rmult_le_compat_l; lra|intros; rewrite !Rmult_assoc; apply Rmult_lt_compat_l; lra].
Qed.
Lemma phi_lt r1 r2 a1 a2 : 0 <= r1 < r2 -> 1 <= a1 <= a2 -> phi r1 a1 < phi r2 a2.
Proof.
  intros HR HA. destruct (term_lt K1 1 3 r1 r2 a1 a2 H1 HR HA) as [T1 S1]; [lia|]. destruct (term_lt K2 2 5 r1 r2 a1 a2 H2 HR HA) as [T2 S2]; [lia|]. destruct (term_lt K3 3 7 r1 r2 a1 a2 H3 HR HA) as [T3 S3]; [lia|].
  unfold phi. rewrite !pow_1 in *. destruct (Req_dec K1 0) as [E1|E1]; [|assert (0 < K1) by lra; specialize (S1 H); lra].
  destruct (Req_dec K2 0) as [E2|E2]; [|assert (0 < K2) by lra; specialize (S2 H); lra]. assert (0 < K3) by lra. specialize (S3 H). lra.
Qed.
Lemma factor_grows n : forall r a, 0 <= r -> 1 <= a -> a <= phi r a -> a <= factor n r a.
Proof.
  induction n as [|n IH]; intros r a HR HA HG; cbn [factor]; [lra|]. destruct (Rltb _ _); [auto|].
  assert (G : phi r a <= phi r (phi r a)). { destruct (phi_gap r r a a 0 (phi r a - a)) as [G0 G1]; try lra. replace (a + (phi r a - a)) with (phi r a) in G1 by ring. lra. }
  specialize (IH r (phi r a) HR). lra.
Qed.
Lemma factor_lt n : forall r1 r2 a1 a2, 0 <= r1 < r2 -> 1 <= a1 < a2 -> 0 <= phi r1 a1 - a1 <= phi r2 a2 - a2 -> factor n r1 a1 < factor n r2 a2.
Proof.
  induction n as [|n IH]; intros r1 r2 a1 a2 HR HA HD; cbn [factor]; [lra|]. set (d1 := phi r1 a1 - a1) in *. set (d2 := phi r2 a2 - a2) in *.
  assert (L : phi r1 a1 < phi r2 a2) by (apply phi_lt; lra). assert (P1 : 1 <= phi r1 a1) by (apply phi_ge1; lra). assert (E : d1 * d1 * r1 <= d2 * d2 * r2) by (apply Rmult_le_compat; nra).
  assert (G : 0 <= phi r1 (phi r1 a1) - phi r1 a1 <= phi r2 (phi r2 a2) - phi r2 a2). { destruct (phi_gap r1 r2 a1 a2 d1 d2) as [G0 G1]; try lra. replace (a1 + d1) with (phi r1 a1) in * by (unfold d1; ring). replace (a2 + d2) with (phi r2 a2) in * by (unfold d2; ring). lra. }
  destruct (Rltb (d1 * d1 * r1) tol) eqn:Q1; destruct (Rltb (d2 * d2 * r2) tol) eqn:Q2; try (apply Rltb_true in Q1 || apply Rltb_false in Q1); try (apply Rltb_true in Q2 || apply Rltb_false in Q2).
  - exact L.
  - eapply Rlt_le_trans; [exact L|]. apply factor_grows; lra.
  - lra.
  - apply IH; lra.
Qed.
Lemma factor_start n r1 r2 : (1 <= n)%nat -> 0 <= r1 < r2 -> factor n r1 1 < factor n r2 1.
Proof.
  intros N HR. destruct n as [|n]; [lia|]. cbn [factor]. assert (L : phi r1 1 < phi r2 1) by (apply phi_lt; lra). assert (P1 : 1 <= phi r1 1) by (apply phi_ge1; lra).
  set (d1 := phi r1 1 - 1). set (d2 := phi r2 1 - 1). assert (D : 0 <= d1 <= d2) by (unfold d1, d2; lra). assert (E : d1 * d1 * r1 <= d2 * d2 * r2) by (apply Rmult_le_compat; nra).
  assert (G : 0 <= phi r1 (phi r1 1) - phi r1 1 <= phi r2 (phi r2 1) - phi r2 1). { destruct (phi_gap r1 r2 1 1 d1 d2) as [G0 G1]; try lra. replace (1 + d1) with (phi r1 1) in * by (unfold d1; ring). replace (1 + d2) with (phi r2 1) in * by (unfold d2; ring). lra. }
  destruct (Rltb (d1 * d1 * r1) tol) eqn:Q1; destruct (Rltb (d2 * d2 * r2) tol) eqn:Q2; try (apply Rltb_true in Q1 || apply Rltb_false in Q1); try (apply Rltb_true in Q2 || apply Rltb_false in Q2).
  - exact L.
  - eapply Rlt_le_trans; [exact L|]. apply factor_grows; lra.
  - lra.
  - apply factor_lt; lra.
Qed.
End BrownBarrel.
Lemma brown_loop c tol h n : bp1 c = 0 -> bp2 c = 0 -> forall a,
  undistort_loop (brown_delta c) tol h n (pscale a h) = pscale (factor (- bk1 c) (- bk2 c) (- bk3 c) tol n (norm2 h) a) h.
Proof.
  intros P1 P2. induction n as [|n IH]; intros a; cbn [undistort_loop factor]; [reflexivity|].
  assert (E : psub h (brown_delta c (pscale a h)) = pscale (phi (- bk1 c) (- bk2 c) (- bk3 c) (norm2 h) a) h).
  { unfold brown_delta, psub, padd, pscale, phi, norm2. rewrite P1, P2. destruct h as [x y]; cbn [fst snd]. f_equal; ring. }
  rewrite E. set (a' := phi _ _ _ _ _).
  replace (fst (psub (pscale a' h) (pscale a h)) * fst (psub (pscale a' h) (pscale a h)) + snd (psub (pscale a' h) (pscale a h)) * snd (psub (pscale a' h) (pscale a h))) with ((a' - a) * (a' - a) * norm2 h) by (unfold psub, pscale, norm2; cbn [fst snd]; ring).
  destruct (Rltb _ _); [reflexivity|apply IH].
Qed.
(* BrownDistortion as an object *)
Definition brown_lens (c : brown_coeffs) (max_iterations : nat) (tol_sq : R) : distortion := {| d_distort := distort (brown_delta c); d_undistort := undistort (brown_delta c) max_iterations tol_sq |}.
Theorem C22_brown_barrel : forall c n tol, bp1 c = 0 -> bp2 c = 0 -> bk1 c <= 0 -> bk2 c <= 0 -> bk3 c <= 0 -> (bk1 c <> 0 \/ bk2 c <> 0 \/ bk3 c <> 0) -> (1 <= n)%nat -> barrel (brown_lens c n tol).
Proof.
  intros c n tol P1 P2 B1 B2 B3 NZ N. assert (S : 0 < - bk1 c + - bk2 c + - bk3 c) by (destruct NZ as [Z|[Z|Z]]; lra).
  exists (fun h => factor (- bk1 c) (- bk2 c) (- bk3 c) tol n (norm2 h) 1). split.
  - intros h. assert (NN : 0 <= norm2 h) by (unfold norm2; nra). split.
    + cbn [d_undistort brown_lens]. unfold undistort. rewrite <- brown_loop by auto. f_equal. destruct h; unfold pscale; cbn [fst snd]; f_equal; ring.
    + eapply Rlt_le_trans; [apply Rlt_0_1|]. apply factor_grows; try lra. apply phi_ge1; lra.
  - intros h m L. apply factor_start; auto; try lra. split; [unfold norm2; nra|auto].
Qed.
(* Brown's model with k1, k2, k3 >= 0, not all zero, is a pincushion wherever undistort undoes distort exactly (which the computed iteration approaches up to its tolerance) *)
Theorem C22_brown_pincushion : forall c d, bp1 c = 0 -> bp2 c = 0 -> 0 <= bk1 c -> 0 <= bk2 c -> 0 <= bk3 c -> (bk1 c <> 0 \/ bk2 c <> 0 \/ bk3 c <> 0) ->
  (forall n, distort (brown_delta c) (d_undistort d n) = n) -> pincushion d.
Proof.
  intros c d P1 P2 B1 B2 B3 NZ EX. set (G := fun r => 1 + (bk1 c * r + bk2 c * (r * r) + bk3 c * (r * r * r))).
  assert (E : forall n, let m := d_undistort d n in n = pscale (G (norm2 m)) m).
  { intros n m. rewrite <- (EX n) at 1. fold m. unfold distort, brown_delta, padd, pscale, G, norm2. rewrite P1, P2. destruct m as [x y]; cbn [fst snd]. f_equal; ring. }
  assert (G1 : forall r, 0 <= r -> 1 <= G r). { intros r R. unfold G. assert (0 <= r * r) by nra. assert (0 <= r * r * r) by nra. assert (0 <= bk1 c * r) by nra. assert (0 <= bk2 c * (r * r)) by nra. assert (0 <= bk3 c * (r * r * r)) by nra. lra. }
  assert (GM : forall r s, 0 <= r < s -> G r < G s). { intros r s RS. unfold G. assert (Q2 : r * r < s * s) by nra. assert (Q3 : r * r * r < s * s * s) by nra.
    assert (L1 : bk1 c * r <= bk1 c * s) by nra. assert (L2 : bk2 c * (r * r) <= bk2 c * (s * s)) by nra. assert (L3 : bk3 c * (r * r * r) <= bk3 c * (s * s * s)) by (apply Rmult_le_compat_l; lra).
    destruct NZ as [Z|[Z|Z]]; [assert (bk1 c * r < bk1 c * s) by (apply Rmult_lt_compat_l; lra)|assert (bk2 c * (r * r) < bk2 c * (s * s)) by (apply Rmult_lt_compat_l; lra)|assert (bk3 c * (r * r * r) < bk3 c * (s * s * s)) by (apply Rmult_lt_compat_l; lra)]; lra. }
  assert (NN : forall m, 0 <= norm2 m) by (intros m; unfold norm2; nra).
  assert (SZ : forall n, norm2 n = G (norm2 (d_undistort d n)) * G (norm2 (d_undistort d n)) * norm2 (d_undistort d n)).
  { intros n. pose proof (E n) as En. cbv zeta in En. set (m := d_undistort d n) in *. transitivity (norm2 (pscale (G (norm2 m)) m)); [rewrite <- En; reflexivity|]. generalize (G (norm2 m)). intros gg. unfold pscale, norm2; cbn [fst snd]. ring. }
  assert (MM : forall n m, norm2 n < norm2 m -> norm2 (d_undistort d n) < norm2 (d_undistort d m)).
  { intros n m L. apply Rnot_le_lt. intros C. rewrite (SZ n), (SZ m) in L. set (a := norm2 (d_undistort d n)) in *. set (b := norm2 (d_undistort d m)) in *.
    assert (0 <= b) by apply NN. assert (Gb : G b <= G a) by (destruct (Req_dec b a) as [->|]; [lra|left; apply GM; lra]). assert (1 <= G b) by auto. assert (G b * G b <= G a * G a) by nra.
    assert (G b * G b * b <= G a * G a * a) by (apply Rmult_le_compat; nra). lra. }
  exists (fun n => / G (norm2 (d_undistort d n))). split.
  - intros n. assert (1 <= G (norm2 (d_undistort d n))) by auto. split; [|apply Rinv_0_lt_compat; lra]. pose proof (E n) as En. cbv zeta in En. set (m := d_undistort d n) in *.
    rewrite En. unfold pscale; cbn [fst snd]. destruct m as [x y]; cbn [fst snd]. f_equal; field; lra.
  - intros n m L. split; [|auto]. apply Rinv_lt_contravar; [|apply GM; split; auto].
    assert (1 <= G (norm2 (d_undistort d n))) by auto. assert (1 <= G (norm2 (d_undistort d m))) by auto. nra.
Qed.

(** ** the hypotheses can be met *)
(* Image::sample_bilinear<WrapMode::Clamp>, image.ipp:410-455, in exact arithmetic; NaN where a pixel read is NaN *)
Definition bilinear (im : image (option vec3)) (u v : R) : option vec3 :=
  let px := ImageModel.clamp01 u * IZR (iw im - 1) in let py := ImageModel.clamp01 v * IZR (ih im - 1) in
  let x0 := ImageModel.truncz px in let y0 := ImageModel.truncz py in
  let x1 := Z.min (x0 + 1) (iw im - 1) in let y1 := Z.min (y0 + 1) (ih im - 1) in
  match ipix im x0 y0, ipix im x1 y0, ipix im x0 y1, ipix im x1 y1 with
  | Some p00, Some p10, Some p01, Some p11 =>
      let mix p := ImageModel.blend (fun r => r) (px - IZR x0) (py - IZR y0) (p p00) (p p10) (p p01) (p p11) in Some (V3 (mix vx) (mix vy) (mix vz))
  | _, _, _, _ => None
  end.
Lemma bilinear_hits : hits bilinear.
Proof.
  intros im x y W H NN X Y. assert (G : forall a b, (2 <= b)%Z -> (0 <= a < b)%Z -> ImageModel.clamp01 (IZR a / IZR (b - 1)) * IZR (b - 1) = IZR a).
  { intros a b B A. assert (0 < IZR (b - 1)) by (apply IZR_lt; lia). assert (0 <= IZR a <= IZR (b - 1)) by (split; apply IZR_le; lia). rewrite ImageProofs.clamp01_id.
    - field; lra. - split; [apply Rmult_le_pos; [lra|left; apply Rinv_0_lt_compat; lra]|]. apply Rmult_le_reg_r with (IZR (b - 1)); auto. unfold Rdiv. rewrite Rmult_assoc, Rinv_l by lra. lra. }
  assert (T : forall a, (0 <= a)%Z -> ImageModel.truncz (IZR a) = a).
  { intros a A. unfold ImageModel.truncz, ImageModel.flr. replace (Rleb 0 (IZR a)) with true by (symmetry; apply Rleb_true; apply IZR_le; auto). assert ((a + 1)%Z = up (IZR a)) by (apply tech_up; rewrite plus_IZR; lra). lia. }
  unfold bilinear. rewrite !G, !T by lia. set (x1 := Z.min (x + 1) (iw im - 1)). set (y1 := Z.min (y + 1) (ih im - 1)).
  pose proof (NN x y). pose proof (NN x1 y). pose proof (NN x y1). pose proof (NN x1 y1).
  destruct (ipix im x y) as [[a b e]|], (ipix im x1 y), (ipix im x y1), (ipix im x1 y1); try congruence. cbv zeta. f_equal. unfold ImageModel.blend; cbn [vx vy vz]. f_equal; ring.
Qed.
(* a 4 x 4 camera, then set_distortion *)
Definition lens_camera (d : distortion) : camera := fst (set_distortion bilinear d {| focal := Fin 1; res_x := 4; res_y := 4; pitch_x := Fin 1; pitch_y := Fin 1; fx := Fin 2; fy := Fin 2; cx := Fin 2; cy := Fin 2;
  rx := 4; ry := 4; is_explicit := true; dist := None; blender := false; field := empty_image None; frustum := []; solid := empty_image None |}).
Lemma lens_camera_ok d : lens bilinear (lens_camera d) d 2 2 2 2.
Proof. split; try reflexivity; lra. Qed.
Example C22_barrel_case : exists c, lens bilinear c (brown_lens {| bk1 := - / 10; bk2 := 0; bk3 := 0; bp1 := 0; bp2 := 0 |} default_max_iterations default_tol_sq) 2 2 2 2 /\
  barrel (brown_lens {| bk1 := - / 10; bk2 := 0; bk3 := 0; bp1 := 0; bp2 := 0 |} default_max_iterations default_tol_sq) /\ (2 <= res_x c)%Z /\ (3 <= res_y c)%Z /\ IZR (res_y c - 1) <= 2 * 2.
Proof.
  eexists. split; [apply lens_camera_ok|]. split; [apply C22_brown_barrel; cbn; try lra; try (left; lra); unfold default_max_iterations; lia|]. cbn. split; [lia|]. split; [lia|]. lra.
Qed.
Example C22_pincushion_case : exists d, pincushion d.
Proof.
  exists {| d_distort := fun n => n; d_undistort := fun n => pscale (/ sqrt (1 + norm2 n)) n |}. exists (fun n => / sqrt (1 + norm2 n)).
  assert (NN : forall m, 0 <= norm2 m) by (intros m; unfold norm2; nra).
  assert (SQ : forall m, sqrt (1 + norm2 m) * sqrt (1 + norm2 m) = 1 + norm2 m) by (intros m; apply sqrt_sqrt; pose proof (NN m); lra).
  assert (SP : forall m, 0 < sqrt (1 + norm2 m)) by (intros m; apply sqrt_lt_R0; pose proof (NN m); lra).
  split; [intros n; split; [reflexivity|apply Rinv_0_lt_compat; auto]|]. intros n m L. pose proof (NN n). split.
  - apply Rinv_lt_contravar; [pose proof (SP n); pose proof (SP m); nra|]. apply sqrt_lt_1; lra.
  - cbn [d_undistort]. assert (V : forall x, norm2 (pscale (/ sqrt (1 + norm2 x)) x) = 1 - / (1 + norm2 x)).
    { intros x. pose proof (SP x). pose proof (NN x). assert (G : forall q, q <> 0 -> norm2 (pscale (/ q) x) = / (q * q) * norm2 x) by (intros q Q; unfold pscale, norm2; cbn [fst snd]; field; auto). rewrite G by lra. rewrite SQ. field. lra. }
    rewrite !V. assert (/ (1 + norm2 m) < / (1 + norm2 n)) by (apply Rinv_lt_contravar; nra). lra.
Qed.
