(* C149: quaternions and rotations. *)
From Coq Require Import Nsatz.
From Verif Require Import Vec3 TransformModel TransformSpec TransformProofs QuatModel.
Open Scope R_scope.

(** ** Specification *)
Definition unit4 (q : quat4) : Prop := match q with (w, x, y, z) => w * w + x * x + y * y + z * z = 1 end.
Definition conj (q : quat4) : quat4 := match q with (w, x, y, z) => (w, - x, - y, - z) end.
Definition neg (q : quat4) : quat4 := match q with (w, x, y, z) => (- w, - x, - y, - z) end.
(* Hamilton's product *)
Definition qmul (p q : quat4) : quat4 := match p, q with (a, b, c, d), (w, x, y, z) =>
  (a * w - b * x - c * y - d * z, a * x + b * w + c * z - d * y, a * y - b * z + c * w + d * x, a * z + b * y - c * x + d * w) end.
(* the vector that q turns v into: q v q* *)
Definition sandwich (q : quat4) (v : vec3) : quat4 := qmul (qmul q (0, vx v, vy v, vz v)) (conj q).
(* Shuster's attitude matrix A(q) of a quaternion (Shuster 1993, eq. 97): (w^2 - |e|^2) 1 + 2 e e^T - 2 w [e x] *)
Definition attitude (s : shuster4) (v : vec3) : vec3 := match s with (x, y, z, w) => let e := V3 x y z in
  vadd (vscale (w * w - dot e e) v) (vsub (vscale (2 * dot e v) e) (vscale (2 * w) (cross e v))) end.

(** ** the entries of a rotation *)
Lemma entries m : is_rotation m -> dot (c0 m) (c0 m) = 1 /\ dot (c1 m) (c1 m) = 1 /\ dot (c2 m) (c2 m) = 1 /\ dot (c0 m) (c1 m) = 0 /\ dot (c0 m) (c2 m) = 0 /\ dot (c1 m) (c2 m) = 0 /\ cross (c0 m) (c1 m) = c2 m /\ cross (c1 m) (c2 m) = c0 m /\ cross (c2 m) (c0 m) = c1 m.
Proof.
  intros (D & X). assert (E0 : mapply m ex = c0 m) by (apply v3_eq; cbn; ring). assert (E1 : mapply m ey = c1 m) by (apply v3_eq; cbn; ring). assert (E2 : mapply m ez = c2 m) by (apply v3_eq; cbn; ring).
  rewrite <- E0, <- E1, <- E2. rewrite !D. assert (C1 : cross ex ey = ez) by (apply v3_eq; cbn; ring). assert (C2 : cross ey ez = ex) by (apply v3_eq; cbn; ring). assert (C3 : cross ez ex = ey) by (apply v3_eq; cbn; ring).
  rewrite <- !X, C1, C2, C3. repeat split; unfold dot; cbn; ring.
Qed.
(* 4 q q^T in terms of the matrix: its 2x2 minors vanish *)
Lemma minors a b c d e f g h i :
  a * a + b * b + c * c = 1 -> d * d + e * e + f * f = 1 -> g * g + h * h + i * i = 1 -> a * d + b * e + c * f = 0 -> a * g + b * h + c * i = 0 -> d * g + e * h + f * i = 0 ->
  b * f - c * e = g -> c * d - a * f = h -> a * e - b * d = i -> e * i - f * h = a -> f * g - d * i = b -> d * h - e * g = c -> h * c - i * b = d -> i * a - g * c = e -> g * b - h * a = f ->
  let W := 1 + a + e + i in let X := 1 + a - e - i in let Y := 1 + e - a - i in let Z := 1 + i - a - e in
  let wx := f - h in let wy := g - c in let wz := b - d in let xy := b + d in let xz := c + g in let yz := f + h in
  (wx * wx = W * X /\ wy * wy = W * Y /\ wz * wz = W * Z /\ xy * xy = X * Y /\ xz * xz = X * Z /\ yz * yz = Y * Z) /\
  (wx * wy = W * xy /\ wx * wz = W * xz /\ wy * wz = W * yz) /\ (wx * xy = X * wy /\ wx * xz = X * wz /\ xy * xz = X * yz) /\
  (wy * xy = Y * wx /\ wy * yz = Y * wz /\ xy * yz = Y * xz) /\ (wz * xz = Z * wx /\ wz * yz = Z * wy /\ xz * yz = Z * xy).
Proof.
  intros. cbv zeta. repeat split; nsatz.
Qed.
Definition products (a b c d e f g h i w x y z : R) : Prop :=
  (w * w = (1 + a + e + i) / 4 /\ x * x = (1 + a - e - i) / 4 /\ y * y = (1 + e - a - i) / 4 /\ z * z = (1 + i - a - e) / 4) /\
  (w * x = (f - h) / 4 /\ w * y = (g - c) / 4 /\ w * z = (b - d) / 4) /\ (x * y = (b + d) / 4 /\ x * z = (c + g) / 4 /\ y * z = (f + h) / 4).
Lemma finish a b c d e f g h i w x y z : products a b c d e f g h i w x y z -> unit4 (w, x, y, z) /\ mat3_cast (w, x, y, z) = M3 (V3 a b c) (V3 d e f) (V3 g h i).
Proof.
  intros ((A1 & A2 & A3 & A4) & (B1 & B2 & B3) & (C1 & C2 & C3)). split; [unfold unit4; lra|]. cbn [mat3_cast]. f_equal; apply v3_eq; cbn [vx vy vz]; lra.
Qed.
Lemma part s j u v r : s * j = 1 -> u * v = s * s * r -> (u * (j * / 2)) * (v * (j * / 2)) = r / 4.
Proof. intros IS H. replace (u * (j * / 2) * (v * (j * / 2))) with (j * j * (u * v) * / 4) by field. rewrite H. replace (j * j * (s * s * r) * / 4) with ((s * j) * (s * j) * r * / 4) by ring. rewrite IS. field. Qed.
Lemma part1 s j u : s * j = 1 -> s * (1 / 2) * (u * (j * / 2)) = u / 4.
Proof. intros IS. replace (s * (1 / 2) * (u * (j * / 2))) with ((s * j) * u * / 4) by field. rewrite IS. field. Qed.
Lemma part2 s j u : s * j = 1 -> (u * (j * / 2)) * (s * (1 / 2)) = u / 4.
Proof. intros IS. rewrite Rmult_comm. apply part1; auto. Qed.
Lemma unit_case m : is_rotation m -> unit4 (quat_cast m) /\ mat3_cast (quat_cast m) = m.
Proof.
  intros M. destruct (entries m M) as (N0 & N1 & N2 & D01 & D02 & D12 & X01 & X12 & X20). clear M. destruct m as [[a b c] [d e f] [g h i]]. unfold dot, cross in *. cbn [c0 c1 c2 vx vy vz] in *. injection X01 as P1 P2 P3. injection X12 as P4 P5 P6. injection X20 as P7 P8 P9.
  destruct (minors a b c d e f g h i N0 N1 N2 D01 D02 D12 P1 P2 P3 P4 P5 P6 P7 P8 P9) as ((q1 & q2 & q3 & q4 & q5 & q6) & (w1 & w2 & w3) & (x1 & x2 & x3) & (y1 & y2 & y3) & (z1 & z2 & z3)). clear N0 N1 N2 D01 D02 D12 P1 P2 P3 P4 P5 P6 P7 P8 P9.
  assert (K : forall t, 1 <= t -> exists s j, sqrt t = s /\ s * s = t /\ s * j = 1 /\ 1 / 4 / (s * (1 / 2)) = j * / 2).
  { intros t T. exists (sqrt t), (/ sqrt t). assert (0 < sqrt t) by (apply sqrt_lt_R0; lra). repeat split; [apply sqrt_sqrt; lra|apply Rinv_r; lra|field; lra]. }
  assert (CW : 1 <= a + e + i + 1 -> forall s j, s * s = a + e + i + 1 -> s * j = 1 -> products a b c d e f g h i (s * (1 / 2)) ((f - h) * (j * / 2)) ((g - c) * (j * / 2)) ((b - d) * (j * / 2))).
  { intros _ s j S2 IS. unfold products. rewrite !(part1 s j) by auto. repeat split; try (apply part with (s := s); auto; rewrite S2; lra); lra. }
  assert (CX : 1 <= a - e - i + 1 -> forall s j, s * s = a - e - i + 1 -> s * j = 1 -> products a b c d e f g h i ((f - h) * (j * / 2)) (s * (1 / 2)) ((b + d) * (j * / 2)) ((g + c) * (j * / 2))).
  { intros _ s j S2 IS. unfold products. rewrite !(part1 s j), !(part2 s j) by auto. repeat split; try (apply part with (s := s); auto; rewrite S2; lra); lra. }
  assert (CY : 1 <= e - a - i + 1 -> forall s j, s * s = e - a - i + 1 -> s * j = 1 -> products a b c d e f g h i ((g - c) * (j * / 2)) ((b + d) * (j * / 2)) (s * (1 / 2)) ((f + h) * (j * / 2))).
  { intros _ s j S2 IS. unfold products. rewrite !(part1 s j), !(part2 s j) by auto. repeat split; try (apply part with (s := s); auto; rewrite S2; lra); lra. }
  assert (CZ : 1 <= i - a - e + 1 -> forall s j, s * s = i - a - e + 1 -> s * j = 1 -> products a b c d e f g h i ((b - d) * (j * / 2)) ((g + c) * (j * / 2)) ((f + h) * (j * / 2)) (s * (1 / 2))).
  { intros _ s j S2 IS. unfold products. rewrite !(part2 s j) by auto. repeat split; try (apply part with (s := s); auto; rewrite S2; lra); lra. }
  unfold quat_cast. cbn [c0 c1 c2 vx vy vz].
  Ltac fin K C := match goal with |- context [sqrt ?t] => let s := fresh "s" in let j := fresh "j" in let E := fresh in let S2 := fresh in let IS := fresh in let Q := fresh in
    destruct (K t ltac:(lra)) as (s & j & E & S2 & IS & Q); rewrite E, Q; apply finish; apply C; auto; lra end.
  destruct (Rltb (a + e + i) (a - e - i)) eqn:L1.
  - destruct (Rltb (a - e - i) (e - a - i)) eqn:L2.
    + destruct (Rltb (e - a - i) (i - a - e)) eqn:L3; rb; [fin K CZ|fin K CY].
    + destruct (Rltb (a - e - i) (i - a - e)) eqn:L3; rb; [fin K CZ|fin K CX].
  - destruct (Rltb (a + e + i) (e - a - i)) eqn:L2.
    + destruct (Rltb (e - a - i) (i - a - e)) eqn:L3; rb; [fin K CZ|fin K CY].
    + destruct (Rltb (a + e + i) (i - a - e)) eqn:L3; rb; [fin K CZ|fin K CW].
Qed.
Lemma quat_set m : is_rotation m -> from_quat (quat_cast m) = Ok m.
Proof. intros M. unfold from_quat. rewrite (proj2 (unit_case m M)). apply set_matrix_id; auto. Qed.
(* unit quaternions with the same matrix are equal or opposite *)
Lemma quat_unique p q : unit4 p -> unit4 q -> mat3_cast p = mat3_cast q -> p = q \/ p = neg q.
Proof.
  destruct p as [[[a b] c] d], q as [[[w x] y] z]. cbn [unit4 mat3_cast neg]. intros U V E. injection E as E1 E2 E3 E4 E5 E6 E7 E8 E9.
  assert (Q1 : a * a = w * w) by lra. assert (Q2 : b * b = x * x) by lra. assert (Q3 : c * c = y * y) by lra. assert (Q4 : d * d = z * z) by lra.
  assert (R1 : a * b = w * x) by lra. assert (R2 : a * c = w * y) by lra. assert (R3 : a * d = w * z) by lra. assert (R4 : b * c = x * y) by lra. assert (R5 : b * d = x * z) by lra. assert (R6 : c * d = y * z) by lra.
  set (k := a * w + b * x + c * y + d * z). assert (K2 : k * k = 1). { unfold k. replace 1 with ((w * w + x * x + y * y + z * z) * (w * w + x * x + y * y + z * z)) by (rewrite V; ring).
    replace ((a * w + b * x + c * y + d * z) * (a * w + b * x + c * y + d * z)) with (a * a * (w * w) + b * b * (x * x) + c * c * (y * y) + d * d * (z * z) + 2 * (a * b * (w * x) + a * c * (w * y) + a * d * (w * z) + b * c * (x * y) + b * d * (x * z) + c * d * (y * z))) by ring.
    rewrite Q1, Q2, Q3, Q4, R1, R2, R3, R4, R5, R6. ring. }
  assert (A : a = k * w). { unfold k. replace ((a * w + b * x + c * y + d * z) * w) with (a * (w * w) + b * (w * x) + c * (w * y) + d * (w * z)) by ring. rewrite <- Q1, <- R1, <- R2, <- R3. replace (a * (a * a) + b * (a * b) + c * (a * c) + d * (a * d)) with (a * (a * a + b * b + c * c + d * d)) by ring. rewrite U. ring. }
  assert (B : b = k * x). { unfold k. replace ((a * w + b * x + c * y + d * z) * x) with (a * (w * x) + b * (x * x) + c * (x * y) + d * (x * z)) by ring. rewrite <- Q2, <- R1, <- R4, <- R5. replace (a * (a * b) + b * (b * b) + c * (b * c) + d * (b * d)) with (b * (a * a + b * b + c * c + d * d)) by ring. rewrite U. ring. }
  assert (C : c = k * y). { unfold k. replace ((a * w + b * x + c * y + d * z) * y) with (a * (w * y) + b * (x * y) + c * (y * y) + d * (y * z)) by ring. rewrite <- Q3, <- R2, <- R4, <- R6. replace (a * (a * c) + b * (b * c) + c * (c * c) + d * (c * d)) with (c * (a * a + b * b + c * c + d * d)) by ring. rewrite U. ring. }
  assert (D : d = k * z). { unfold k. replace ((a * w + b * x + c * y + d * z) * z) with (a * (w * z) + b * (x * z) + c * (y * z) + d * (z * z)) by ring. rewrite <- Q4, <- R3, <- R5, <- R6. replace (a * (a * d) + b * (b * d) + c * (c * d) + d * (d * d)) with (d * (a * a + b * b + c * c + d * d)) by ring. rewrite U. ring. }
  assert (KK : k = 1 \/ k = -1) by (assert ((k - 1) * (k + 1) = 0) by lra; destruct (Rmult_integral _ _ H); [left|right]; lra).
  clearbody k. destruct KK as [-> | ->]; [left|right]; rewrite A, B, C, D; f_equal; try ring; f_equal; try ring; f_equal; ring.
Qed.
Lemma qinverse_unit q : unit4 q -> qinverse q = conj q.
Proof. destruct q as [[[w x] y] z]. cbn [unit4 qinverse conj]. intros ->. f_equal; [f_equal; [f_equal|]|]; field. Qed.
Lemma qinverse_twice q : unit4 q -> qinverse (conj q) = q.
Proof. intros U. rewrite qinverse_unit by (destruct q as [[[w x] y] z]; cbn in *; lra). destruct q as [[[w x] y] z]. cbn. f_equal; [f_equal; [f_equal|]|]; ring. Qed.
Lemma mat3_sandwich q v : unit4 q -> sandwich q v = (0, vx (mapply (mat3_cast q) v), vy (mapply (mat3_cast q) v), vz (mapply (mat3_cast q) v)).
Proof.
  destruct q as [[[w x] y] z], v as [a b c]. cbn [unit4]. intros U. unfold sandwich. cbn -[Rplus Rmult Rminus]. assert (W : w * w = 1 - x * x - y * y - z * z) by lra.
  f_equal; [f_equal; [f_equal|]|]; ring_simplify; replace (w ^ 2) with (1 - x * x - y * y - z * z) by (rewrite <- W; ring); ring.
Qed.
Lemma mat3_mul p q : unit4 p -> unit4 q -> unit4 (qmul p q) /\ mat3_cast (qmul p q) = mmul (mat3_cast p) (mat3_cast q).
Proof.
  destruct p as [[[a b] c] d], q as [[[w x] y] z]. intros U V. assert (N : unit4 (qmul (a, b, c, d) (w, x, y, z))). { cbn [unit4 qmul] in *. replace 1 with ((a * a + b * b + c * c + d * d) * (w * w + x * x + y * y + z * z)) by (rewrite U, V; ring). ring. }
  split; [exact N|]. assert (W : forall v, mapply (mat3_cast (qmul (a, b, c, d) (w, x, y, z))) v = mapply (mat3_cast (a, b, c, d)) (mapply (mat3_cast (w, x, y, z)) v)).
  { intros v. assert (E1 := mat3_sandwich (qmul (a, b, c, d) (w, x, y, z)) v N). set (u := mapply (mat3_cast (w, x, y, z)) v) in *. assert (E2 := mat3_sandwich (w, x, y, z) v V). assert (E3 := mat3_sandwich (a, b, c, d) u U).
    assert (E4 : sandwich (qmul (a, b, c, d) (w, x, y, z)) v = sandwich (a, b, c, d) u). { unfold sandwich at 2. fold u in E2. rewrite <- E2. unfold sandwich. cbn. f_equal; [f_equal; [f_equal|]|]; ring. }
    rewrite E1, E3 in E4. injection E4 as F1 F2 F3. apply v3_eq; auto. }
  unfold mmul. assert (C0 : forall m, c0 m = mapply m ex) by (intros; apply v3_eq; cbn; ring). assert (C1 : forall m, c1 m = mapply m ey) by (intros; apply v3_eq; cbn; ring). assert (C2 : forall m, c2 m = mapply m ez) by (intros; apply v3_eq; cbn; ring).
  rewrite (C0 (mat3_cast (w, x, y, z))), (C1 (mat3_cast (w, x, y, z))), (C2 (mat3_cast (w, x, y, z))), <- !W. generalize (mat3_cast (qmul (a, b, c, d) (w, x, y, z))). intros m. rewrite <- C0, <- C1, <- C2. destruct m; reflexivity.
Qed.

(** ** the theorems *)
(* the quaternion of a rotation: of length one, turning every vector as the rotation does, and giving the rotation back, in both
   directions and in both component orders *)
Theorem C149_get : forall m, is_rotation m ->
  unit4 (get_quat m) /\ (forall v, sandwich (get_quat m) v = (0, vx (mapply m v), vy (mapply m v), vz (mapply m v))) /\ get_parent_quat m = conj (get_quat m) /\
  from_quat (get_quat m) = Ok m /\ from_parent_quat (get_parent_quat m) = Ok m /\ from_shuster (get_shuster m) = Ok m /\ from_parent_shuster (get_parent_shuster m) = Ok m.
Proof.
  intros m M. unfold get_quat, get_parent_quat, get_shuster, get_parent_shuster, from_shuster, from_parent_shuster, get_quat, get_parent_quat. destruct (unit_case m M) as (U & E). split; [exact U|]. split; [intros v; rewrite mat3_sandwich by auto; rewrite E; reflexivity|]. split; [apply qinverse_unit; auto|].
  assert (H : forall q, to_hamilton (to_shuster q) = q) by (intros [[[w x] y] z]; reflexivity). rewrite !H. unfold from_parent_quat. rewrite (qinverse_unit (quat_cast m)), qinverse_twice by auto. repeat split; apply quat_set; auto.
Qed.
(* a rotation made from a unit quaternion gives that quaternion back, or its opposite: the one whose largest component is positive *)
Theorem C149_set : forall q, unit4 q -> exists m, from_quat q = Ok m /\ is_rotation m /\ (get_quat m = q \/ get_quat m = neg q).
Proof.
  intros q U. assert (M : is_rotation (mat3_cast q)) by (destruct q as [[[w x] y] z]; apply mat3_cast_rotation; exact U). exists (mat3_cast q). split; [apply set_matrix_id; auto|]. split; auto. destruct (unit_case _ M) as (V & E). apply quat_unique; auto.
Qed.
(* the quaternion of a composition is the product of the quaternions, up to sign *)
Theorem C149_product : forall a b, is_rotation a -> is_rotation b -> exists c, rot_mul a b = Ok c /\ (get_quat c = qmul (get_quat a) (get_quat b) \/ get_quat c = neg (qmul (get_quat a) (get_quat b))).
Proof.
  intros a b A B. exists (mmul a b). split; [apply set_matrix_id, mmul_rotation; auto|]. destruct (unit_case a A) as (UA & EA). destruct (unit_case b B) as (UB & EB). destruct (mat3_mul _ _ UA UB) as (UP & EP). destruct (unit_case (mmul a b)) as (UC & EC); [apply mmul_rotation; auto|].
  unfold get_quat. apply quat_unique; auto. rewrite EP, EA, EB. exact EC.
Qed.
(* the "Shuster" quaternion has Shuster's order but Hamilton's sign: Shuster's attitude matrix of it is the inverse of the rotation *)
Theorem C149_refuted_shuster : forall m, is_rotation m ->
  (forall v, attitude (get_shuster m) v = mapply (transpose m) v) /\ ((forall v, attitude (get_shuster m) v = mapply m v) <-> (forall v, mapply m (mapply m v) = v)).
Proof.
  intros m M. destruct (unit_case m M) as (U & E). assert (T : forall v, attitude (get_shuster m) v = mapply (transpose m) v).
  { intros v. unfold get_shuster, get_quat. destruct (quat_cast m) as [[[w x] y] z]. rewrite <- E. cbn [unit4] in U. destruct v as [a b c]. assert (W : w * w = 1 - x * x - y * y - z * z) by lra.
    apply v3_eq; unfold attitude, dot, cross, vadd, vsub, vscale, mapply, transpose; cbn -[Rplus Rmult Rminus]; ring_simplify; replace (w ^ 2) with (1 - x * x - y * y - z * z) by (rewrite <- W; ring); ring. }
  split; [exact T|]. split.
  - intros H v. rewrite <- (H (mapply m v)), T. apply rotation_cancel; auto.
  - intros H v. rewrite T. rewrite <- (H v) at 1. apply rotation_cancel; auto.
Qed.
(* a quaternion that is not of length one is not normalised: zero is taken for the identity, and a turn by a right angle about x that
   is too long by half of a ten-thousandth is accepted and turns by another angle *)
Theorem C149_refuted_length : (exists m, from_quat (0, 0, 0, 0) = Ok m /\ mapply m ey = ey) /\
  exists k m, 0 < k < 1 + / 10000 /\ from_quat (k * sqrt (/ 2), k * sqrt (/ 2), 0, 0) = Ok m /\ mapply (mat3_cast (sqrt (/ 2), sqrt (/ 2), 0, 0)) ey = ez /\ mapply m ey <> ez.
Proof.
  split.
  - exists ident. split; [|apply v3_eq; cbn; ring]. unfold from_quat. replace (mat3_cast (0, 0, 0, 0)) with ident by (unfold ident, mat3_cast; f_equal; f_equal; ring). apply set_matrix_id, ident_rotation.
  - set (e := / 10000). assert (EE : e = / 10000) by reflexivity. assert (S2 : sqrt (/ 2) * sqrt (/ 2) = / 2) by (apply sqrt_sqrt; lra). assert (K2 : sqrt (1 + e) * sqrt (1 + e) = 1 + e) by (apply sqrt_sqrt; lra). assert (KP : 0 < sqrt (1 + e)) by (apply sqrt_lt_R0; lra). set (s := sqrt (/ 2)) in *. set (k := sqrt (1 + e)) in *. clearbody s k.
    assert (MM : mat3_cast (k * s, k * s, 0, 0) = M3 (V3 1 0 0) (V3 0 (- e) (1 + e)) (V3 0 (- (1 + e)) (- e))).
    { unfold mat3_cast. replace (k * s * (k * s)) with ((k * k) * (s * s)) by ring. rewrite K2, S2. f_equal; apply v3_eq; cbn; lra. }
    exists k, (orthonormalize (mat3_cast (k * s, k * s, 0, 0))). split; [split; [auto|nra]|]. split; [|split].
    + unfold from_quat, set_matrix. destruct (Rltb (/ 1000) (Rabs (det (mat3_cast (k * s, k * s, 0, 0)) - 1))) eqn:L; auto. exfalso. rb. rewrite MM in L. unfold det in L. cbn [c0 c1 c2 vx vy vz] in L. replace (1 * (- e * - e - - (1 + e) * (1 + e)) - 0 * (0 * - e - - (1 + e) * 0) + 0 * (0 * (1 + e) - - e * 0) - 1) with (2 * e + 2 * (e * e)) in L by ring. rewrite Rabs_pos_eq in L by nra. rewrite EE in L. lra.
    + unfold mat3_cast. rewrite S2. apply v3_eq; cbn; lra.
    + rewrite MM. intros H. apply (f_equal vy) in H. unfold orthonormalize, normalize in H. cbn [c0 c1 c2] in H.
      assert (L1 : vlen (V3 1 0 0) = 1) by (unfold vlen, dot; cbn; replace (1 * 1 + 0 * 0 + 0 * 0) with 1 by ring; apply sqrt_1). rewrite L1 in H. set (u := vsub _ _) in H.
      assert (UU : u = V3 0 (- e) (1 + e)) by (unfold u; apply v3_eq; unfold vsub, vscale, dot; cbn; field). rewrite UU in H. set (l := vlen (V3 0 (- e) (1 + e))) in H. assert (LP : 0 < l) by (unfold l, vlen; apply sqrt_lt_R0; unfold dot; cbn; nra). cbn -[Rinv Rplus Rmult] in H.
      assert (IL : 0 < / l) by (apply Rinv_0_lt_compat; auto). nra.
Qed.
(* a case: a third of a turn about the diagonal *)
Example case_third : let m := M3 (V3 0 1 0) (V3 0 0 1) (V3 1 0 0) in is_rotation m /\ get_quat m = (1 / 2, 1 / 2, 1 / 2, 1 / 2).
Proof.
  cbv zeta. split; [split; intros [a b c] [d e f]; [unfold dot; cbn; ring|apply v3_eq; cbn; ring]|]. unfold get_quat, quat_cast. cbn [c0 c1 c2 vx vy vz].
  replace (0 + 0 + 0) with 0 by ring. replace (0 - 0 - 0) with 0 by ring. assert (L : Rltb 0 0 = false) by (apply Rltb_false; lra). rewrite L, L, L. replace (0 + 1) with 1 by ring. rewrite sqrt_1. f_equal; [f_equal; [f_equal|]|]; field.
Qed.
