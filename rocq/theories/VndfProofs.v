(* Calculus for C108: the Jacobian of visible-normal sampling. *)
From Coq Require Import Reals Lra Lia Psatz.
From Coquelicot Require Import Coquelicot.
From Verif Require Import Common Vec3 SpectralProofs2 LightModel LightProofs BsdfModel BsdfSpec BsdfProps SolidSpec.
Open Scope R_scope.

Definition triple (a b c : vec3) : R := dot a (cross b c).

Lemma velocity_ext_loc g h a v : locally a (fun t => g t = h t) -> velocity g a v -> velocity h a v.
Proof.
  intros L (A & B & C). split; [|split]; (eapply is_derive_ext_loc; [|eassumption]); (eapply filter_imp; [|exact L]); cbn; intros t E; rewrite E; reflexivity.
Qed.
Lemma derive_comb (c1 c2 c3 : R -> R) a d1 d2 d3 x y z : is_derive c1 a d1 -> is_derive c2 a d2 -> is_derive c3 a d3 ->
  is_derive (fun t => c1 t * x + c2 t * y + c3 t * z) a (d1 * x + d2 * y + d3 * z).
Proof.
  intros A B C.
  assert (S : forall (c : R -> R) d x, is_derive c a d -> is_derive (fun t => c t * x) a (d * x)).
  { intros c d k H. apply (is_derive_ext (fun t => k * c t)); [intros; apply Rmult_comm|]. rewrite (Rmult_comm d k). apply is_derive_scal. exact H. }
  apply (is_derive_plus (V := R_NormedModule) (fun t => c1 t * x + c2 t * y) (fun t => c3 t * z)); [apply (is_derive_plus (V := R_NormedModule) (fun t => c1 t * x) (fun t => c2 t * y))|]; apply S; auto.
Qed.
Lemma velocity_comb (c1 c2 c3 : R -> R) a d1 d2 d3 E1 E2 E3 : is_derive c1 a d1 -> is_derive c2 a d2 -> is_derive c3 a d3 ->
  velocity (fun t => vadd (vadd (vscale (c1 t) E1) (vscale (c2 t) E2)) (vscale (c3 t) E3)) a (vadd (vadd (vscale d1 E1) (vscale d2 E2)) (vscale d3 E3)).
Proof. intros A B C. split; [|split]; cbn [vx vy vz vadd vscale]; apply derive_comb; auto. Qed.
Lemma velocity_vel g a v : velocity g a v -> velocity (fun t => V3 (vx (g t)) (vy (g t)) (vz (g t))) a v.
Proof. auto. Qed.
Lemma velocity_squash g a v al : velocity g a v -> velocity (fun t => V3 (al * vx (g t)) (al * vy (g t)) (vz (g t))) a (V3 (al * vx v) (al * vy v) (vz v)).
Proof. intros (A & B & C). split; [|split]; cbn [vx vy vz]; auto; apply is_derive_scal; auto. Qed.
Lemma derive_dot g h a v w : velocity g a v -> velocity h a w -> is_derive (fun t => dot (g t) (h t)) a (dot v (h a) + dot (g a) w).
Proof.
  intros (A & B & C) (A' & B' & C'). unfold dot.
  replace (vx v * vx (h a) + vy v * vy (h a) + vz v * vz (h a) + (vx (g a) * vx w + vy (g a) * vy w + vz (g a) * vz w)) with
    (vx v * vx (h a) + vx (g a) * vx w + (vy v * vy (h a) + vy (g a) * vy w) + (vz v * vz (h a) + vz (g a) * vz w)) by ring.
  apply (is_derive_plus (V := R_NormedModule) (fun t => vx (g t) * vx (h t) + vy (g t) * vy (h t)) (fun t => vz (g t) * vz (h t))).
  - apply (is_derive_plus (V := R_NormedModule) (fun t => vx (g t) * vx (h t)) (fun t => vy (g t) * vy (h t))).
    + apply (is_derive_mult (fun t => vx (g t)) (fun t => vx (h t)) a _ _ A A'). intros; apply Rmult_comm.
    + apply (is_derive_mult (fun t => vy (g t)) (fun t => vy (h t)) a _ _ B B'). intros; apply Rmult_comm.
  - apply (is_derive_mult (fun t => vz (g t)) (fun t => vz (h t)) a _ _ C C'). intros; apply Rmult_comm.
Qed.
Lemma velocity_scale (c : R -> R) g a d v : is_derive c a d -> velocity g a v -> velocity (fun t => vscale (c t) (g t)) a (vadd (vscale d (g a)) (vscale (c a) v)).
Proof.
  intros D (A & B & C). split; [|split]; cbn [vx vy vz vscale vadd].
  - apply (is_derive_mult c (fun t => vx (g t)) a _ _ D A). intros; apply Rmult_comm.
  - apply (is_derive_mult c (fun t => vy (g t)) a _ _ D B). intros; apply Rmult_comm.
  - apply (is_derive_mult c (fun t => vz (g t)) a _ _ D C). intros; apply Rmult_comm.
Qed.
Lemma velocity_add g h a v w : velocity g a v -> velocity h a w -> velocity (fun t => vadd (g t) (h t)) a (vadd v w).
Proof.
  intros (A & B & C) (A' & B' & C'). split; [|split]; cbn [vx vy vz vadd].
  - apply (is_derive_plus (V := R_NormedModule) (fun t => vx (g t)) (fun t => vx (h t))); auto.
  - apply (is_derive_plus (V := R_NormedModule) (fun t => vy (g t)) (fun t => vy (h t))); auto.
  - apply (is_derive_plus (V := R_NormedModule) (fun t => vz (g t)) (fun t => vz (h t))); auto.
Qed.
Lemma velocity_const k a : velocity (fun _ => k) a vzero.
Proof. split; [|split]; cbn; apply (is_derive_const (V := R_NormedModule)). Qed.
Lemma velocity_eq g a v w : v = w -> velocity g a v -> velocity g a w. Proof. intros ->; auto. Qed.
(* the derivative of a normalised vector, up to a multiple of the vector *)
Lemma velocity_normalize g a v : velocity g a v -> 0 < dot (g a) (g a) ->
  exists k, velocity (fun t => normalize (g t)) a (vadd (vscale k (g a)) (vscale (/ vlen (g a)) v)).
Proof.
  intros V P. pose proof (derive_dot g g a v v V V) as D. assert (L : 0 < vlen (g a)) by (apply sqrt_lt_R0; auto).
  assert (DI : is_derive (fun t => / vlen (g t)) a (- ((dot v (g a) + dot (g a) v) / (2 * sqrt (dot (g a) (g a)))) / (vlen (g a)) ^ 2)).
  { apply (is_derive_inv (fun t => vlen (g t))); [|apply Rgt_not_eq; exact L]. unfold vlen. apply is_derive_sqrt; auto. }
  eexists. unfold normalize. apply (velocity_scale (fun t => / vlen (g t)) g a _ v DI V).
Qed.
(** areas *)
Lemma triple_normalize g x y k l : 0 < dot g g ->
  triple (normalize g) (vadd (vscale k g) (vscale (/ vlen g) x)) (vadd (vscale l g) (vscale (/ vlen g) y)) = triple g x y / vlen g ^ 3.
Proof.
  intros P. assert (L : 0 < vlen g) by (apply sqrt_lt_R0; auto). unfold normalize. set (m := / vlen g).
  replace (triple g x y / vlen g ^ 3) with (m * m * m * triple g x y) by (unfold m; field; lra).
  unfold triple, dot, cross, vadd, vscale. cbn [vx vy vz]. ring.
Qed.
Lemma triple_squash al n x y : triple (V3 (al * vx n) (al * vy n) (vz n)) (V3 (al * vx x) (al * vy x) (vz x)) (V3 (al * vx y) (al * vy y) (vz y)) = al * al * triple n x y.
Proof. unfold triple, dot, cross. cbn [vx vy vz]. ring. Qed.
Lemma triple_basis E1 E2 E3 a b c : let F w := vadd (vadd (vscale (vx w) E1) (vscale (vy w) E2)) (vscale (vz w) E3) in
  triple (F a) (F b) (F c) = triple E1 E2 E3 * triple a b c.
Proof. cbv zeta. unfold triple, dot, cross, vadd, vscale. cbn [vx vy vz]. ring. Qed.
Lemma gram E1 E2 E3 : triple E1 E2 E3 * triple E1 E2 E3 = dot E1 E1 * (dot E2 E2 * dot E3 E3 - dot E2 E3 * dot E2 E3)
  - dot E1 E2 * (dot E1 E2 * dot E3 E3 - dot E2 E3 * dot E1 E3) + dot E1 E3 * (dot E1 E2 * dot E2 E3 - dot E2 E2 * dot E1 E3).
Proof. unfold triple, dot, cross. cbn [vx vy vz]. ring. Qed.
Lemma orthonormal_triple E1 E2 E3 : orthonormal E1 E2 E3 -> Rabs (triple E1 E2 E3) = 1.
Proof.
  intros (A & B & C & D & E & F). unfold unit in *. pose proof (gram E1 E2 E3) as G. rewrite A, B, C, D, E, F in G.
  assert (Q : triple E1 E2 E3 = 1 \/ triple E1 E2 E3 = -1) by (assert (H : (triple E1 E2 E3 - 1) * (triple E1 E2 E3 + 1) = 0) by lra; apply Rmult_integral in H; destruct H; [left|right]; lra).
  destruct Q as [-> | ->]; [apply Rabs_R1|rewrite Rabs_left; lra].
Qed.
(* mirror of -v about h: turns solid angle by 4 (v . h) *)
Lemma triple_mirror v h x y : dot v v = 1 -> dot h h = 1 -> dot h x = 0 -> dot h y = 0 ->
  triple (vadd (vscale (2 * dot h v) h) (vscale (-1) v)) (vadd (vscale (2 * dot x v) h) (vscale (2 * dot h v) x)) (vadd (vscale (2 * dot y v) h) (vscale (2 * dot h v) y)) = 4 * dot h v * triple h x y.
Proof.
  intros V H X Y. set (c := dot h v). set (k := triple h x y).
  (* x cross y = k h *)
  assert (I1 : forall u, dot u (cross x y) * 1 = k * dot u h).
  { intros u. rewrite <- H. transitivity (dot u (cross x y) * dot h h); [reflexivity|]. unfold k.
    transitivity (triple h x y * dot u h - dot (cross (cross x y) h) (cross u h) * -1 + 0 - dot (cross (cross x y) h) (cross u h) * 1 - (triple h x y * dot u h) + dot u (cross x y) * dot h h); [ring|].
    assert (Z : cross (cross x y) h = vzero). { transitivity (vsub (vscale (dot h x) y) (vscale (dot h y) x)); [apply v3_eq; unfold dot; cbn; ring|]. rewrite X, Y. apply v3_eq; cbn; ring. }
    assert (L : dot (cross (cross x y) h) (cross u h) = dot (cross x y) u * dot h h - dot (cross x y) h * dot h u) by (unfold dot, cross; cbn; ring).
    rewrite Z in L. assert (L0 : dot vzero (cross u h) = 0) by (unfold dot; cbn; ring). rewrite L0 in L. rewrite Z, L0. unfold triple. rewrite (dot_comm u (cross x y)), (dot_comm u h), (dot_comm h (cross x y)). lra. }
  assert (I2 : dot v v * k = c * dot v (cross x y) + dot x v * triple v y h + dot y v * triple v h x) by (unfold k, c, triple, dot, cross; cbn; ring).
  pose proof (I1 v) as I3. rewrite (dot_comm v h) in I3. fold c in I3.
  transitivity (8 * c * c * c * k * 1 - 4 * c * (2 * (c * dot v (cross x y)) - (c * dot v (cross x y) + dot x v * triple v y h + dot y v * triple v h x)) + 0).
  - unfold k, c, triple, dot, cross, vadd, vscale. cbn [vx vy vz]. ring.
  - rewrite <- I2, V. assert (E : dot v (cross x y) = k * c) by lra. rewrite E. ring.
Qed.

(** the warped disk *)
Definition k1 (u b : R) : R := sqrt u * cos (2 * PI * b).
Definition k2 (s u b : R) : R := (1 - s) * sqrt (1 - k1 u b * k1 u b) + s * (sqrt u * sin (2 * PI * b)).
Definition k3 (s u b : R) : R := sqrt (1 - k1 u b * k1 u b - k2 s u b * k2 s u b).
Lemma k1_lt u b : 0 <= u < 1 -> 0 < 1 - k1 u b * k1 u b /\ (sqrt u * sin (2 * PI * b)) * (sqrt u * sin (2 * PI * b)) < 1 - k1 u b * k1 u b.
Proof.
  intros H. unfold k1. pose proof (sin2_cos2 (2 * PI * b)) as SC. unfold Rsqr in SC. pose proof (sqrt_sqrt u ltac:(lra)) as Q.
  assert (E1 : sqrt u * cos (2 * PI * b) * (sqrt u * cos (2 * PI * b)) = u * (cos (2 * PI * b) * cos (2 * PI * b))) by (rewrite <- Q at 3; ring).
  assert (E2 : sqrt u * sin (2 * PI * b) * (sqrt u * sin (2 * PI * b)) = u * (sin (2 * PI * b) * sin (2 * PI * b))) by (rewrite <- Q at 3; ring).
  rewrite E1, E2. set (C := cos _) in *. set (S := sin _) in *. clearbody C S. clear E1 E2. split; nra.
Qed.
Lemma k2_lt s u b : 0 < s <= 1 -> 0 <= u < 1 -> 0 < 1 - k1 u b * k1 u b - k2 s u b * k2 s u b.
Proof.
  intros HS H. destruct (k1_lt u b H) as (P & Q). unfold k2. set (w := 1 - k1 u b * k1 u b) in *. set (y := sqrt u * sin _) in *.
  pose proof (sqrt_sqrt w ltac:(lra)) as W. assert (0 < sqrt w) by (apply sqrt_lt_R0; auto). set (q := sqrt w) in *. clearbody w y q.
  assert (- q < y < q) by (split; nra). assert (- q < (1 - s) * q + s * y < q) by (split; nra). nra.
Qed.
Lemma derive_k1_u a b : 0 < a -> is_derive (fun u => k1 u b) a (cos (2 * PI * b) / (2 * sqrt a)).
Proof. intros H. unfold k1. auto_derive; [auto|]. field. apply Rgt_not_eq, sqrt_lt_R0; auto. Qed.
Lemma derive_k1_b a b : is_derive (fun t => k1 a t) b (- (2 * PI) * (sqrt a * sin (2 * PI * b))).
Proof. unfold k1. auto_derive; [auto|]. ring. Qed.
Lemma derive_k2_of (f g : R -> R) s a df dg : is_derive f a df -> is_derive g a dg -> 0 < 1 - f a * f a ->
  is_derive (fun t => (1 - s) * sqrt (1 - f t * f t) + s * g t) a ((1 - s) * (- (f a * df) / sqrt (1 - f a * f a)) + s * dg).
Proof.
  intros F G P. assert (0 < sqrt (1 - f a * f a)) by (apply sqrt_lt_R0; auto).
  apply (is_derive_plus (V := R_NormedModule) (fun t => (1 - s) * sqrt (1 - f t * f t)) (fun t => s * g t)); apply is_derive_scal; auto.
  assert (D : is_derive (fun t => 1 - f t * f t) a (- (2 * (f a * df)))).
  { replace (- (2 * (f a * df))) with (0 - (df * f a + f a * df)) by ring. apply (is_derive_minus (V := R_NormedModule) (fun _ => 1) (fun t => f t * f t)); [apply (is_derive_const (V := R_NormedModule))|].
    apply (is_derive_mult f f a df df F F). intros; apply Rmult_comm. }
  replace (- (f a * df) / sqrt (1 - f a * f a)) with (- (2 * (f a * df)) / (2 * sqrt (1 - f a * f a))) by (field; lra). apply (is_derive_sqrt (fun t => 1 - f t * f t)); auto.
Qed.
Lemma derive_k3_of (f g : R -> R) a df dg : is_derive f a df -> is_derive g a dg -> 0 < 1 - f a * f a - g a * g a ->
  is_derive (fun t => sqrt (1 - f t * f t - g t * g t)) a (- (f a * df + g a * dg) / sqrt (1 - f a * f a - g a * g a)).
Proof.
  intros F G P. assert (0 < sqrt (1 - f a * f a - g a * g a)) by (apply sqrt_lt_R0; auto).
  assert (D : is_derive (fun t => 1 - f t * f t - g t * g t) a (- (2 * (f a * df + g a * dg)))).
  { replace (- (2 * (f a * df + g a * dg))) with (0 - (df * f a + f a * df) - (dg * g a + g a * dg)) by ring.
    apply (is_derive_minus (V := R_NormedModule) (fun t => 1 - f t * f t) (fun t => g t * g t)); [apply (is_derive_minus (V := R_NormedModule) (fun _ => 1) (fun t => f t * f t)); [apply (is_derive_const (V := R_NormedModule))|]|].
    - apply (is_derive_mult f f a df df F F). intros; apply Rmult_comm.
    - apply (is_derive_mult g g a dg dg G G). intros; apply Rmult_comm. }
  replace (- (f a * df + g a * dg) / sqrt (1 - f a * f a - g a * g a)) with (- (2 * (f a * df + g a * dg)) / (2 * sqrt (1 - f a * f a - g a * g a))) by (field; lra).
  apply (is_derive_sqrt (fun t => 1 - f t * f t - g t * g t)); auto.
Qed.
Definition K (s u b : R) : vec3 := V3 (k1 u b) (k2 s u b) (k3 s u b).
Lemma K_unit s u b : 0 < s <= 1 -> 0 < u < 1 -> dot (K s u b) (K s u b) = 1 /\ 0 < k3 s u b.
Proof.
  intros HS H. pose proof (k2_lt s u b HS ltac:(lra)) as P. split; [|apply sqrt_lt_R0; auto]. unfold dot, K, k3. cbn [vx vy vz]. rewrite sqrt_sqrt by lra. ring.
Qed.
Lemma K_area s a b : 0 < s <= 1 -> 0 < a < 1 -> exists ka kb, velocity (fun t => K s t b) a ka /\ velocity (fun t => K s a t) b kb /\ triple (K s a b) ka kb = s * PI / k3 s a b.
Proof.
  intros HS H. destruct (k1_lt a b ltac:(lra)) as (P1 & _). pose proof (k2_lt s a b HS ltac:(lra)) as P2. destruct (K_unit s a b HS H) as (U & P3). assert (QA : 0 < sqrt a) by (apply sqrt_lt_R0; lra).
  pose proof (derive_k1_u a b ltac:(lra)) as Du1. pose proof (derive_k1_b a b) as Db1.
  assert (Eu : is_derive (fun u => sqrt u * sin (2 * PI * b)) a (sin (2 * PI * b) / (2 * sqrt a))) by (auto_derive; [lra|]; field; lra).
  assert (Eb : is_derive (fun t => sqrt a * sin (2 * PI * t)) b (2 * PI * (sqrt a * cos (2 * PI * b)))) by (auto_derive; [auto|]; ring).
  pose proof (derive_k2_of _ _ s a _ _ Du1 Eu P1) as Du2. pose proof (derive_k2_of _ _ s b _ _ Db1 Eb P1) as Db2.
  cbv beta in Du2, Db2.
  set (x2 := (1 - s) * (- (k1 a b * (cos (2 * PI * b) / (2 * sqrt a))) / sqrt (1 - k1 a b * k1 a b)) + s * (sin (2 * PI * b) / (2 * sqrt a))) in *.
  set (y2 := (1 - s) * (- (k1 a b * (- (2 * PI) * (sqrt a * sin (2 * PI * b)))) / sqrt (1 - k1 a b * k1 a b)) + s * (2 * PI * (sqrt a * cos (2 * PI * b)))) in *.
  pose proof (derive_k3_of (fun t => k1 t b) (fun t => k2 s t b) a _ x2 Du1 Du2 P2) as Du3. pose proof (derive_k3_of (fun t => k1 a t) (fun t => k2 s a t) b _ y2 Db1 Db2 P2) as Db3. cbv beta in Du3, Db3.
  fold (k3 s a b) in Du3, Db3.
  exists (V3 (cos (2 * PI * b) / (2 * sqrt a)) x2 (- (k1 a b * (cos (2 * PI * b) / (2 * sqrt a)) + k2 s a b * x2) / k3 s a b)).
  exists (V3 (- (2 * PI) * (sqrt a * sin (2 * PI * b))) y2 (- (k1 a b * (- (2 * PI) * (sqrt a * sin (2 * PI * b))) + k2 s a b * y2) / k3 s a b)).
  split; [split; [exact Du1|split; [exact Du2|exact Du3]]|]. split; [split; [exact Db1|split; [exact Db2|exact Db3]]|].
  assert (J : cos (2 * PI * b) / (2 * sqrt a) * y2 - - (2 * PI) * (sqrt a * sin (2 * PI * b)) * x2 = s * PI).
  { assert (0 < sqrt (1 - k1 a b * k1 a b)) by (apply sqrt_lt_R0; auto). pose proof (sin2_cos2 (2 * PI * b)) as SC. unfold Rsqr in SC. unfold x2, y2. clear - QA H0 SC.
    transitivity (s * PI * (sin (2 * PI * b) * sin (2 * PI * b) + cos (2 * PI * b) * cos (2 * PI * b))); [|rewrite SC; ring]. field. split; lra. }
  unfold dot, K in U. cbn [vx vy vz] in U. unfold triple, dot, cross, K. cbn [vx vy vz]. clear - P3 J U.
  set (p := cos _ / _) in *. set (q := - (2 * PI) * _) in *. set (z := k3 s a b) in *. set (x := k1 a b) in *. set (y := k2 s a b) in *. clearbody p q x2 y2 z x y.
  transitivity ((p * y2 - q * x2) * (x * x + y * y + z * z) / z); [field; lra|]. rewrite U, J. field. lra.
Qed.

(** visible normals *)
Section Visible.
Variables (v : vec3) (rough : R).
Hypothesis Hv : dot v v = 1. Hypothesis Hz : 0 < vz v. Hypothesis Hr : 0 < rough.
Let al := rough * rough.
Definition stretched := V3 (rough * rough * vx v) (rough * rough * vy v) (vz v).
Let m := vlen stretched.
Let Vh := normalize stretched.
Definition tangent1 : vec3 := let Vh := normalize stretched in let len2 := vx Vh * vx Vh + vy Vh * vy Vh in
  if Rltb (/ 10 ^ 7) len2 then vscale (/ sqrt len2) (V3 (- vy Vh) (vx Vh) 0) else V3 1 0 0.
Hypothesis Hc : / 10 ^ 7 < vx (normalize stretched) * vx (normalize stretched) + vy (normalize stretched) * vy (normalize stretched) \/ (vx v = 0 /\ vy v = 0).
Let T1 := tangent1.
Let T2 := cross Vh T1.
Definition frame_of (w : vec3) : vec3 := vadd (vadd (vscale (vx w) tangent1) (vscale (vy w) (cross (normalize stretched) tangent1))) (vscale (vz w) (normalize stretched)).
Definition swarp : R := 5 / 10 * (1 + vz (normalize stretched)).

Lemma stretched_pos : 0 < dot stretched stretched.
Proof. unfold dot, stretched. cbn [vx vy vz]. assert (0 < vz v * vz v) by nra. set (x := _ * vx v). set (y := _ * vy v). nra. Qed.
Lemma m_pos : 0 < m. Proof. apply sqrt_lt_R0, stretched_pos. Qed.
Lemma m_sq : m * m = (rough * rough) * (rough * rough) * (1 - vz v * vz v) + vz v * vz v.
Proof.
  unfold m, vlen. rewrite sqrt_sqrt by (pose proof stretched_pos; lra). unfold dot, stretched. cbn [vx vy vz].
  assert (E : 1 - vz v * vz v = vx v * vx v + vy v * vy v) by (unfold dot in Hv; lra). rewrite E. ring.
Qed.
Lemma Vh_unit : dot Vh Vh = 1. Proof. apply normalize_unit, stretched_pos. Qed.
Lemma Vh_z : vz Vh = vz v / m.
Proof. unfold Vh, normalize, vscale. cbn [vz stretched]. fold m. unfold Rdiv. ring. Qed.
Lemma swarp_bounds : 0 < swarp <= 1.
Proof.
  unfold swarp. fold Vh. pose proof Vh_unit as U. pose proof Vh_z as Z. assert (0 < vz Vh) by (rewrite Z; apply Rdiv_lt_0_compat; [auto|apply m_pos]).
  unfold dot in U. assert (vz Vh <= 1) by nra. lra.
Qed.
Lemma tangents : orthonormal T1 T2 Vh /\ triple T1 T2 Vh = 1.
Proof.
  pose proof Vh_unit as U.
  assert (A : dot T1 T1 = 1 /\ dot T1 Vh = 0).
  { unfold T1, tangent1. cbv zeta. fold Vh. fold Vh in Hc. unfold Rltb. destruct (Rlt_dec _ _) as [L|L].
    - set (l := vx Vh * vx Vh + vy Vh * vy Vh) in *. assert (0 < l) by lra. assert (Q : 0 < sqrt l) by (apply sqrt_lt_R0; auto). pose proof (sqrt_sqrt l ltac:(lra)) as QQ.
      unfold dot, vscale. cbn [vx vy vz]. split; [|ring]. transitivity (/ sqrt l * / sqrt l * l); [unfold l; ring|]. rewrite <- QQ at 3. field. lra.
    - destruct Hc as [C|(C1 & C2)]; [lra|]. unfold dot. cbn [vx vy vz]. split; [ring|]. unfold Vh, normalize, vscale, stretched. cbn [vx vy vz]. rewrite C1. ring. }
  destruct A as (A & B). unfold T2. unfold orthonormal, unit.
  assert (C : dot (cross Vh T1) (cross Vh T1) = 1) by (rewrite cross_len, U, A, (dot_comm Vh T1), B; ring).
  split; [repeat split; auto; unfold dot, cross; cbn [vx vy vz]; ring|].
  transitivity (dot T1 T1 * dot Vh Vh - dot T1 Vh * dot T1 Vh); [unfold triple, dot, cross; cbn [vx vy vz]; ring|]. rewrite A, U, B. ring.
Qed.
Lemma frame_of_dot w : dot (frame_of w) (frame_of w) = dot w w /\ dot (frame_of w) Vh = vz w.
Proof.
  destruct tangents as ((H1 & H2 & H3 & H4 & H5 & H6) & _). unfold unit in *.
  unfold frame_of. fold Vh. fold T1. fold T2.
  split.
  - transitivity (vx w * vx w * dot T1 T1 + vy w * vy w * dot T2 T2 + vz w * vz w * dot Vh Vh + 2 * vx w * vy w * dot T1 T2 + 2 * vx w * vz w * dot T1 Vh + 2 * vy w * vz w * dot T2 Vh).
    + unfold dot, vadd, vscale. cbn [vx vy vz]. ring.
    + rewrite H1, H2, H3, H4, H5, H6. unfold dot. ring.
  - transitivity (vx w * dot T1 Vh + vy w * dot T2 Vh + vz w * dot Vh Vh); [unfold dot, vadd, vscale; cbn [vx vy vz]; ring|]. rewrite H3, H5, H6. ring.
Qed.
Lemma half_eq u b : 0 <= u < 1 -> ggx_vndf_half v rough u b = let Nh := frame_of (K swarp u b) in normalize (V3 (rough * rough * vx Nh) (rough * rough * vy Nh) (Rmax 0 (vz Nh))).
Proof.
  intros H. unfold ggx_vndf_half. cbv zeta. fold stretched. fold tangent1. fold swarp. unfold frame_of, K, k3. cbn [vx vy vz].
  destruct (k1_lt u b H) as (P & _). pose proof (k2_lt swarp u b swarp_bounds H) as P2.
  assert (E2 : (1 - swarp) * sqrt (Rmax 0 (1 - sqrt u * cos (2 * PI * b) * (sqrt u * cos (2 * PI * b)))) + swarp * (sqrt u * sin (2 * PI * b)) = k2 swarp u b).
  { unfold k2. rewrite Rmax_right; [reflexivity|]. unfold k1 in P. lra. }
  rewrite E2. fold (k1 u b). rewrite (Rmax_right 0 (1 - k1 u b * k1 u b - _)) by lra. reflexivity.
Qed.
Definition squash (w : vec3) : vec3 := V3 (rough * rough * vx w) (rough * rough * vy w) (vz w).
Lemma half_area a b : 0 < a < 1 -> 0 < vz (ggx_vndf_half v rough a b) -> exists ha hb, let h := ggx_vndf_half v rough a b in let L := vlen (squash (frame_of (K swarp a b))) in
  velocity (fun t => ggx_vndf_half v rough t b) a ha /\ velocity (fun t => ggx_vndf_half v rough a t) b hb /\
  triple h ha hb = (rough * rough) * (rough * rough) * (swarp * PI / k3 swarp a b) / L ^ 3 /\ 0 < L /\ dot h h = 1 /\
  vz h * vz h * ((rough * rough) * (rough * rough) - 1) + 1 = (rough * rough) * (rough * rough) / L ^ 2 /\ dot h v = m * k3 swarp a b / L.
Proof.
  intros H HZ. rewrite half_eq in HZ by lra. cbv zeta in HZ.
  assert (NZ : 0 < vz (frame_of (K swarp a b))).
  { set (z := vz (frame_of _)) in *. destruct (Rlt_dec 0 z) as [|N]; auto. exfalso. rewrite Rmax_left in HZ by lra. unfold normalize, vscale in HZ. cbn [vz] in HZ. lra. }
  destruct (K_area swarp a b swarp_bounds H) as (ka & kb & VA & VB & AR).
  assert (FA : velocity (fun t => frame_of (K swarp t b)) a (frame_of ka)).
  { destruct VA as (A1 & A2 & A3). unfold frame_of. apply velocity_comb; [exact A1|exact A2|exact A3]. }
  assert (FB : velocity (fun t => frame_of (K swarp a t)) b (frame_of kb)).
  { destruct VB as (A1 & A2 & A3). unfold frame_of. apply velocity_comb; [exact A1|exact A2|exact A3]. }
  set (N := frame_of (K swarp a b)) in *.
  assert (SP : 0 < dot (squash N) (squash N)) by (unfold dot, squash; cbn [vx vy vz]; assert (0 < vz N * vz N) by nra; set (x := _ * vx N); set (y := _ * vy N); nra).
  assert (LP : 0 < vlen (squash N)) by (apply sqrt_lt_R0; auto).
  assert (HE : ggx_vndf_half v rough a b = normalize (squash N)).
  { rewrite half_eq by lra. cbv zeta. fold N. unfold squash. rewrite Rmax_right by lra. reflexivity. }
  destruct (velocity_normalize (fun t => squash (frame_of (K swarp t b))) a (squash (frame_of ka))) as (kA & NA); [apply (velocity_squash (fun t => frame_of (K swarp t b))); exact FA|exact SP|].
  destruct (velocity_normalize (fun t => squash (frame_of (K swarp a t))) b (squash (frame_of kb))) as (kB & NB); [apply (velocity_squash (fun t => frame_of (K swarp a t))); exact FB|exact SP|].
  cbv beta in NA, NB. fold N in NA, NB.
  exists (vadd (vscale kA (squash N)) (vscale (/ vlen (squash N)) (squash (frame_of ka)))), (vadd (vscale kB (squash N)) (vscale (/ vlen (squash N)) (squash (frame_of kb)))).
  cbv zeta. rewrite HE.
  assert (UN : dot N N = 1) by (unfold N; rewrite (proj1 (frame_of_dot _)); apply K_unit; auto; apply swarp_bounds).
  assert (LL : vlen (squash N) * vlen (squash N) = dot (squash N) (squash N)) by (unfold vlen; apply sqrt_sqrt; lra).
  split; [|split; [|split; [|split; [auto|split; [|split]]]]].
  - eapply velocity_ext_loc; [|exact NA].
    assert (C : locally a (fun t => 0 < vz (frame_of (K swarp t b)))).
    { destruct FA as (_ & _ & D). assert (CN : continuous (fun t => vz (frame_of (K swarp t b))) a) by (apply (ex_derive_continuous (V := R_NormedModule)); eexists; exact D). apply CN. apply (open_gt 0). exact NZ. }
    assert (C2 : locally a (fun t => 0 < t < 1)) by (apply (locally_interval _ a 0 1); cbn; [lra|lra|intros; lra]).
    generalize (filter_and _ _ C C2). apply filter_imp. intros t (P1 & P2). rewrite half_eq by lra. cbv zeta. unfold squash. rewrite Rmax_right by lra. reflexivity.
  - eapply velocity_ext_loc; [|exact NB].
    assert (C : locally b (fun t => 0 < vz (frame_of (K swarp a t)))).
    { destruct FB as (_ & _ & D). assert (CN : continuous (fun t => vz (frame_of (K swarp a t))) b) by (apply (ex_derive_continuous (V := R_NormedModule)); eexists; exact D). apply CN. apply (open_gt 0). exact NZ. }
    revert C. apply filter_imp. intros t P1. rewrite half_eq by lra. cbv zeta. unfold squash. rewrite Rmax_right by lra. reflexivity.
  - rewrite triple_normalize by auto. f_equal. unfold squash. rewrite triple_squash. f_equal. unfold N, frame_of. rewrite (triple_basis tangent1 (cross (normalize stretched) tangent1) (normalize stretched)).
    destruct tangents as (_ & TT). unfold T2, T1, Vh in TT. rewrite TT, Rmult_1_l. exact AR.
  - apply normalize_unit. auto.
  - unfold normalize, vscale. cbn [vz]. change (vz (squash N)) with (vz N). set (L := vlen (squash N)) in *.
    assert (LE : L * L = (rough * rough) * (rough * rough) * (1 - vz N * vz N) + vz N * vz N).
    { rewrite LL. unfold dot, squash. cbn [vx vy vz]. assert (E : 1 - vz N * vz N = vx N * vx N + vy N * vy N) by (unfold dot in UN; lra). rewrite E. ring. }
    apply (Rmult_eq_reg_r (L * L)); [|nra]. transitivity (vz N * vz N * (rough * rough * (rough * rough) - 1) + L * L); [field; lra|].
    rewrite LE. transitivity (rough * rough * (rough * rough)); [ring|]. rewrite <- LE. field. lra.
  - pose proof m_pos. pose proof (proj2 (frame_of_dot (K swarp a b))) as FD. fold N in FD. unfold Vh, normalize in FD. fold m in FD. cbn [vz K] in FD.
    assert (ED : dot N (vscale (/ m) stretched) = / m * dot (squash N) v).
    { unfold dot, vscale, stretched, squash. cbn [vx vy vz]. ring. }
    rewrite ED in FD. unfold normalize. rewrite dot_scale_l. replace (dot (squash N) v) with (m * (/ m * dot (squash N) v)) by (field; lra). rewrite FD. unfold Rdiv. ring.
Qed.
End Visible.
