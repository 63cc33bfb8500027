(* Lemmas about rotations and transforms. *)
From Verif Require Import Vec3 TransformModel TransformSpec.
From Coq Require Import Ascii String.
From Coquelicot Require Import Coquelicot.
Open Scope R_scope.

Ltac vec := apply v3_eq; cbn; ring.
Lemma mapply_lin m a b u v : mapply m (vadd (vscale a u) (vscale b v)) = vadd (vscale a (mapply m u)) (vscale b (mapply m v)).
Proof. vec. Qed.
Lemma mapply_add m u v : mapply m (vadd u v) = vadd (mapply m u) (mapply m v). Proof. vec. Qed.
Lemma mapply_sub m u v : mapply m (vsub u v) = vsub (mapply m u) (mapply m v). Proof. vec. Qed.
Lemma mapply_scale m a u : mapply m (vscale a u) = vscale a (mapply m u). Proof. vec. Qed.
Lemma mapply_mmul a b v : mapply (mmul a b) v = mapply a (mapply b v). Proof. vec. Qed.
Lemma mapply_ident v : mapply ident v = v. Proof. vec. Qed.
Lemma mapply_transpose m v : mapply (transpose m) v = V3 (dot (c0 m) v) (dot (c1 m) v) (dot (c2 m) v).
Proof. apply v3_eq; unfold dot; cbn; ring. Qed.
Lemma mat_eq a b : (forall v, mapply a v = mapply b v) -> a = b.
Proof.
  intros H. assert (E : forall m, m = M3 (mapply m (V3 1 0 0)) (mapply m (V3 0 1 0)) (mapply m (V3 0 0 1))).
  { intros [x y z]. f_equal; vec. }
  rewrite (E a), (E b), !H. reflexivity.
Qed.
Lemma det_cross m : det m = dot (c0 m) (cross (c1 m) (c2 m)). Proof. unfold det, dot; cbn; ring. Qed.
Lemma dot_comm a b : dot a b = dot b a. Proof. unfold dot; ring. Qed.
Lemma dot_lin a b x y z u v w : dot (vadd (vadd (vscale a x) (vscale b y)) (vscale z u)) (vadd (vadd (vscale v x) (vscale w y)) (vscale 0 u)) =
  a * v * dot x x + (a * w + b * v) * dot x y + b * w * dot y y + z * v * dot u x + z * w * dot u y.
Proof. unfold dot; cbn; ring. Qed.
Lemma mapply_dot m u v : dot (mapply m u) (mapply m v) =
  vx u * vx v * dot (c0 m) (c0 m) + vy u * vy v * dot (c1 m) (c1 m) + vz u * vz v * dot (c2 m) (c2 m)
  + (vx u * vy v + vy u * vx v) * dot (c0 m) (c1 m) + (vx u * vz v + vz u * vx v) * dot (c0 m) (c2 m) + (vy u * vz v + vz u * vy v) * dot (c1 m) (c2 m).
Proof. unfold dot; cbn; ring. Qed.
Lemma mapply_cross m u v : cross (mapply m u) (mapply m v) =
  vadd (vadd (vscale (vy u * vz v - vz u * vy v) (cross (c1 m) (c2 m))) (vscale (vz u * vx v - vx u * vz v) (cross (c2 m) (c0 m)))) (vscale (vx u * vy v - vy u * vx v) (cross (c0 m) (c1 m))).
Proof. vec. Qed.
Lemma cross_cross a b c : cross a (cross b c) = vsub (vscale (dot a c) b) (vscale (dot a b) c).
Proof. apply v3_eq; unfold dot; cbn; ring. Qed.
Lemma cross_cross_l a b c : cross (cross a b) c = vsub (vscale (dot a c) b) (vscale (dot b c) a).
Proof. apply v3_eq; unfold dot; cbn; ring. Qed.
Lemma lagrange a b : dot (cross a b) (cross a b) = dot a a * dot b b - dot a b * dot a b. Proof. unfold dot; cbn; ring. Qed.
Lemma cross_perp_l a b : dot a (cross a b) = 0. Proof. unfold dot; cbn; ring. Qed.
Lemma cross_perp_r a b : dot b (cross a b) = 0. Proof. unfold dot; cbn; ring. Qed.
Lemma vscale_1 v : vscale 1 v = v. Proof. vec. Qed.

Lemma frame_rotation x y : dot x x = 1 -> dot y y = 1 -> dot x y = 0 -> is_rotation (M3 x y (cross x y)).
Proof.
  intros X Y XY. split; intros u v.
  - rewrite mapply_dot. cbn [c0 c1 c2]. rewrite lagrange, cross_perp_l, cross_perp_r, X, Y, XY. unfold dot. ring.
  - rewrite mapply_cross. cbn [c0 c1 c2]. rewrite cross_cross, cross_cross_l. rewrite (dot_comm y x), X, Y, XY. vec.
Qed.
Lemma rotation_cols m : is_rotation m -> dot (c0 m) (c0 m) = 1 /\ dot (c1 m) (c1 m) = 1 /\ dot (c0 m) (c1 m) = 0 /\ cross (c0 m) (c1 m) = c2 m /\ cross (c1 m) (c2 m) = c0 m /\ cross (c2 m) (c0 m) = c1 m.
Proof.
  intros (D & C). assert (E0 : mapply m ex = c0 m) by vec. assert (E1 : mapply m ey = c1 m) by vec. assert (E2 : mapply m ez = c2 m) by vec.
  assert (X0 : cross ex ey = ez) by vec. assert (X1 : cross ey ez = ex) by vec. assert (X2 : cross ez ex = ey) by vec.
  rewrite <- E0, <- E1, <- E2, !D, <- !C, X0, X1, X2. unfold dot; cbn. repeat split; ring.
Qed.
Lemma rotation_det m : is_rotation m -> det m = 1.
Proof. intros H. destruct (rotation_cols m H) as (A & B & C & D & E & F). rewrite det_cross, E. auto. Qed.
Lemma dot_pos v : 0 <= dot v v. Proof. unfold dot. nra. Qed.
Lemma dot_zero v : dot v v = 0 -> v = vzero.
Proof. unfold dot. intros H. apply v3_eq; cbn; nra. Qed.
Lemma normalize_unit v : v <> vzero -> dot (normalize v) (normalize v) = 1.
Proof.
  intros N. assert (P : 0 < dot v v). { destruct (Rle_lt_or_eq_dec _ _ (dot_pos v)) as [H|H]; auto. exfalso. apply N. apply dot_zero. auto. }
  unfold normalize. assert (L : 0 < vlen v) by (apply sqrt_lt_R0; auto). assert (S : vlen v * vlen v = dot v v) by (apply sqrt_sqrt; lra).
  replace (dot (vscale (/ vlen v) v) (vscale (/ vlen v) v)) with (/ vlen v * / vlen v * dot v v) by (unfold dot; cbn; ring). rewrite <- S. field. lra.
Qed.
Lemma normalize_id v : dot v v = 1 -> normalize v = v.
Proof. intros H. unfold normalize, vlen. rewrite H, sqrt_1, Rinv_1. apply vscale_1. Qed.
Lemma orthonormalize_rotation m : det m <> 0 -> is_rotation (orthonormalize m).
Proof.
  intros D. unfold orthonormalize. set (x := normalize (c0 m)). set (y' := vsub (c1 m) (vscale (dot (c1 m) x) x)).
  assert (NX : c0 m <> vzero). { intros E. apply D. rewrite det_cross, E. unfold dot; cbn. ring. }
  assert (X : dot x x = 1) by (apply normalize_unit; auto).
  assert (XY : dot x y' = 0). { unfold y'. rewrite dot_sub, dot_scale, X, (dot_comm x (c1 m)). ring. }
  assert (NY : y' <> vzero).
  { intros E. apply D. rewrite det_cross. assert (Z : c1 m = vscale (dot (c1 m) x * / vlen (c0 m)) (c0 m)).
    { assert (Z : vadd y' (vscale (dot (c1 m) x) x) = c1 m) by (unfold y'; vec). rewrite <- Z at 1. rewrite E. unfold x, normalize. vec. }
    rewrite Z. unfold dot; cbn; ring. }
  apply frame_rotation; auto; [apply normalize_unit; auto|]. unfold normalize. rewrite dot_scale, XY. ring.
Qed.
Lemma set_matrix_rotation m r : set_matrix m = Ok r -> is_rotation r.
Proof.
  unfold set_matrix. destruct (Rltb _ _) eqn:E; [discriminate|]. intros [= <-]. rb. apply orthonormalize_rotation. intros Z. rewrite Z in E.
  replace (0 - 1) with (-1) in E by ring. rewrite Rabs_left in E by lra. lra.
Qed.
Lemma set_matrix_id m : is_rotation m -> set_matrix m = Ok m.
Proof.
  intros H. destruct (rotation_cols m H) as (A & B & C & D & E & F). unfold set_matrix. rewrite (rotation_det m H). replace (1 - 1) with 0 by ring. rewrite Rabs_R0.
  destruct (Rltb _ 0) eqn:X; rb; [lra|]. f_equal. unfold orthonormalize. rewrite (normalize_id (c0 m)) by auto. rewrite (dot_comm (c1 m)), C.
  replace (vsub (c1 m) (vscale 0 (c0 m))) with (c1 m) by vec. rewrite (normalize_id (c1 m)) by auto. rewrite D. destruct m; reflexivity.
Qed.
Lemma mmul_rotation a b : is_rotation a -> is_rotation b -> is_rotation (mmul a b).
Proof. intros (A1 & A2) (B1 & B2). split; intros u v; rewrite !mapply_mmul; [rewrite A1; auto|rewrite B2, A2; auto]. Qed.
Lemma ident_rotation : is_rotation ident. Proof. split; intros u v; rewrite !mapply_ident; auto. Qed.
(* every entry of a rotation is its cofactor, hence the rows are orthonormal too *)
Lemma rotation_rows m : is_rotation m -> mmul m (transpose m) = ident.
Proof.
  intros H. destruct (rotation_cols m H) as (A & B & C & D & E & F). pose proof (rotation_det m H) as G. destruct m as [[x1 x2 x3] [y1 y2 y3] [z1 z2 z3]]. unfold det in G. cbn in D, E, F, G.
  injection D as D1 D2 D3. injection E as E1 E2 E3. injection F as F1 F2 F3. unfold mmul, ident, transpose. cbn. unfold mapply. cbn. unfold vadd, vscale. cbn.
  assert (P1 : x1 * x1 + y1 * y1 + z1 * z1 = 1) by (rewrite <- G; rewrite <- E1 at 2; rewrite <- F1 at 2; rewrite <- D1 at 2; ring).
  assert (P2 : x2 * x2 + y2 * y2 + z2 * z2 = 1) by (rewrite <- G; rewrite <- E2 at 2; rewrite <- F2 at 2; rewrite <- D2 at 2; ring).
  assert (P3 : x3 * x3 + y3 * y3 + z3 * z3 = 1) by (rewrite <- G; rewrite <- E3 at 2; rewrite <- F3 at 2; rewrite <- D3 at 2; ring).
  assert (P4 : x1 * x2 + y1 * y2 + z1 * z2 = 0) by (rewrite <- E2; rewrite <- F2; rewrite <- D2; ring).
  assert (P5 : x1 * x3 + y1 * y3 + z1 * z3 = 0) by (rewrite <- E3; rewrite <- F3; rewrite <- D3; ring).
  assert (P6 : x2 * x3 + y2 * y3 + z2 * z3 = 0) by (rewrite <- E3; rewrite <- F3; rewrite <- D3; ring).
  f_equal; apply v3_eq; cbn; lra.
Qed.
Lemma rotation_cancel m v : is_rotation m -> mapply (transpose m) (mapply m v) = v.
Proof.
  intros H. rewrite mapply_transpose. assert (E0 : mapply m ex = c0 m) by vec. assert (E1 : mapply m ey = c1 m) by vec. assert (E2 : mapply m ez = c2 m) by vec.
  destruct H as (D & _). rewrite <- E0, <- E1, <- E2, !D. apply v3_eq; unfold dot; cbn; ring.
Qed.
Lemma rotation_cancel' m v : is_rotation m -> mapply m (mapply (transpose m) v) = v.
Proof. intros H. rewrite <- mapply_mmul, (rotation_rows m H), mapply_ident. auto. Qed.
Lemma transpose_rotation m : is_rotation m -> is_rotation (transpose m).
Proof.
  intros H. pose proof H as (D & C). split; intros u v.
  - rewrite <- D, !rotation_cancel' by auto. auto.
  - rewrite <- (rotation_cancel' m u H) at 1. rewrite <- (rotation_cancel' m v H) at 1. rewrite <- C. apply rotation_cancel; auto.
Qed.
Lemma rotation_inj m u v : is_rotation m -> mapply m u = mapply m v -> u = v.
Proof. intros H E. rewrite <- (rotation_cancel m u H), <- (rotation_cancel m v H), E. auto. Qed.
Lemma cs a : cos a * cos a + sin a * sin a = 1.
Proof. pose proof (sin2_cos2 a) as H. unfold Rsqr in H. lra. Qed.
Lemma rodrigues_turned n a v : mapply (rodrigues n (cos a) (sin a)) v = vadd (vadd (vscale (cos a) v) (vscale (sin a) (cross n v))) (vscale ((1 - cos a) * dot n v) n).
Proof. apply v3_eq; unfold dot; cbn; ring. Qed.
Lemma turned_formula n a v : turned n a v = vadd (vadd (vscale (cos a) v) (vscale (sin a) (cross n v))) (vscale ((1 - cos a) * dot n v) n).
Proof. apply v3_eq; unfold turned, dot; cbn; ring. Qed.
Lemma rodrigues_rotation n a : dot n n = 1 -> is_rotation (rodrigues n (cos a) (sin a)).
Proof.
  intros N. pose proof (cs a) as CS. unfold dot in N. destruct n as [x y z]. cbn in N. set (c := cos a) in *. set (s := sin a) in *. clearbody c s.
  assert (N' : z * z = 1 - x * x - y * y) by lra. assert (CS' : s * s = 1 - c * c) by lra.
  assert (R : rodrigues (V3 x y z) c s = M3 (V3 (c + x * x * (1 - c)) (y * x * (1 - c) + z * s) (z * x * (1 - c) - y * s)) (V3 (x * y * (1 - c) - z * s) (c + y * y * (1 - c)) (z * y * (1 - c) + x * s))
     (cross (V3 (c + x * x * (1 - c)) (y * x * (1 - c) + z * s) (z * x * (1 - c) - y * s)) (V3 (x * y * (1 - c) - z * s) (c + y * y * (1 - c)) (z * y * (1 - c) + x * s)))).
  { unfold rodrigues. cbn [vx vy vz]. f_equal. unfold cross. cbn [vx vy vz]. f_equal; ring [N' CS']. }
  rewrite R. apply frame_rotation; unfold dot; cbn [vx vy vz]; ring [N' CS'].
Qed.
Lemma rot_x_turned a v : mapply (rot_x a) v = turned ex a v. Proof. apply v3_eq; unfold turned, dot; cbn; ring. Qed.
Lemma rot_y_turned a v : mapply (rot_y a) v = turned ey a v. Proof. apply v3_eq; unfold turned, dot; cbn; ring. Qed.
Lemma rot_z_turned a v : mapply (rot_z a) v = turned ez a v. Proof. apply v3_eq; unfold turned, dot; cbn; ring. Qed.
Lemma turned_rotation n a : dot n n = 1 -> forall m, (forall v, mapply m v = turned n a v) -> is_rotation m.
Proof.
  intros N m H. assert (m = rodrigues n (cos a) (sin a)) as ->; [|apply rodrigues_rotation; auto]. apply mat_eq. intros v. rewrite H, rodrigues_turned, turned_formula. auto.
Qed.
Lemma rot_x_rotation a : is_rotation (rot_x a). Proof. apply (turned_rotation ex a); [unfold dot; cbn; ring|apply rot_x_turned]. Qed.
Lemma rot_y_rotation a : is_rotation (rot_y a). Proof. apply (turned_rotation ey a); [unfold dot; cbn; ring|apply rot_y_turned]. Qed.
Lemma rot_z_rotation a : is_rotation (rot_z a). Proof. apply (turned_rotation ez a); [unfold dot; cbn; ring|apply rot_z_turned]. Qed.
Lemma of_deg_deg a : of_deg (deg a) = a. Proof. unfold of_deg, deg. field. pose proof PI_RGT_0. lra. Qed.
Lemma mat3_cast_rotation q : (match q with (w, x, y, z) => w * w + x * x + y * y + z * z = 1 end) -> is_rotation (mat3_cast q).
Proof.
  destruct q as [[[w x] y] z]. intros N. cbn [mat3_cast]. assert (N' : w * w = 1 - x * x - y * y - z * z) by lra.
  match goal with |- is_rotation (M3 ?a ?b ?c) => assert (R : c = cross a b) by (unfold cross; cbn [vx vy vz]; f_equal; ring [N']); rewrite R; apply frame_rotation; unfold dot; cbn [vx vy vz]; ring [N'] end.
Qed.
