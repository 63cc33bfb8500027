(* C108: every direction above the surface is reached once by each lobe. *)
From Coq Require Import Reals Lra Lia Psatz.
From Coquelicot Require Import Coquelicot.
From Verif Require Import Common Vec3 SpectralProofs2 LightModel LightProofs BsdfModel BsdfSpec BsdfProps SolidSpec VndfProofs VndfProps.
Open Scope R_scope.

Lemma angle_exists C S : C * C + S * S = 1 -> exists b, 0 <= b < 1 /\ cos (2 * PI * b) = C /\ sin (2 * PI * b) = S.
Proof.
  intros H. pose proof PI_RGT_0 as PP. assert (CB : -1 <= C <= 1) by nra. pose proof (acos_bound C) as AB. pose proof (cos_acos C CB) as CA. pose proof (sin_acos C CB) as SA.
  assert (SQ : sqrt (1 - Rsqr C) = Rabs S). { replace (1 - Rsqr C) with (Rsqr S) by (unfold Rsqr; lra). apply sqrt_Rsqr_abs. } rewrite SQ in SA.
  destruct (Rle_dec 0 S) as [P|P].
  - exists (acos C / (2 * PI)). replace (2 * PI * (acos C / (2 * PI))) with (acos C) by (field; lra). rewrite CA, SA, Rabs_pos_eq by auto. repeat split; auto.
    + apply Rmult_le_pos; [lra|apply Rlt_le, Rinv_0_lt_compat; lra].
    + apply (Rmult_lt_reg_r (2 * PI)); [lra|]. unfold Rdiv. rewrite Rmult_assoc, Rinv_l by lra. lra.
  - exists (1 - acos C / (2 * PI)). replace (2 * PI * (1 - acos C / (2 * PI))) with (- acos C + 2 * INR 1 * PI) by (cbn; field; lra). rewrite cos_period, sin_period, cos_neg, sin_neg, CA, SA, Rabs_left by lra.
    assert (A0 : 0 < acos C). { destruct (Req_dec (acos C) 0) as [Z|]; [|lra]. rewrite Z, sin_0 in SA. apply eq_sym, Rabs_eq_0 in SA. lra. }
    repeat split; try lra.
    + assert (acos C / (2 * PI) <= 1); [|lra]. apply (Rmult_le_reg_r (2 * PI)); [lra|]. unfold Rdiv. rewrite Rmult_assoc, Rinv_l by lra. lra.
    + assert (0 < acos C / (2 * PI)) by (apply Rdiv_lt_0_compat; lra). lra.
Qed.
Lemma angle_unique b c : 0 <= b < 1 -> 0 <= c < 1 -> cos (2 * PI * b) = cos (2 * PI * c) -> sin (2 * PI * b) = sin (2 * PI * c) -> b = c.
Proof.
  intros B C E F. pose proof PI_RGT_0 as PP. set (x := PI * (b - c)). assert (X : - PI < x < PI) by (unfold x; nra).
  assert (Z : sin x = 0).
  { assert (D : cos (2 * x) = 1). { replace (2 * x) with (2 * PI * b - 2 * PI * c) by (unfold x; ring). rewrite cos_minus, E, F. pose proof (sin2_cos2 (2 * PI * c)) as SC. unfold Rsqr in SC. lra. }
    rewrite cos_2a_sin in D. nra. }
  destruct (Rtotal_order x 0) as [L|[L|L]].
  - pose proof (sin_gt_0 (- x) ltac:(lra) ltac:(lra)) as P. rewrite sin_neg in P. lra.
  - unfold x in L. nra.
  - pose proof (sin_gt_0 x ltac:(lra) ltac:(lra)). lra.
Qed.
Lemma polar_exists x y : x * x + y * y < 1 -> exists u b, 0 <= u < 1 /\ 0 <= b < 1 /\ sqrt u * cos (2 * PI * b) = x /\ sqrt u * sin (2 * PI * b) = y /\ u = x * x + y * y.
Proof.
  intros H. set (u := x * x + y * y) in *. assert (U : 0 <= u) by (unfold u; nra). destruct (Req_dec u 0) as [Z|Z].
  - exists 0, 0. rewrite sqrt_0. assert (x = 0) by (unfold u in Z; nra). assert (y = 0) by (unfold u in Z; nra). repeat split; lra.
  - assert (Q : 0 < sqrt u) by (apply sqrt_lt_R0; lra). pose proof (sqrt_sqrt u U) as QQ.
    destruct (angle_exists (x / sqrt u) (y / sqrt u)) as (b & B1 & B2 & B3).
    { transitivity ((x * x + y * y) / (sqrt u * sqrt u)); [field; lra|]. rewrite QQ. change (u / u = 1). field. auto. }
    exists u, b. rewrite B2, B3. repeat split; try lra; field; lra.
Qed.
Lemma polar_unique u b u' b' : 0 < u -> 0 < u' -> 0 <= b < 1 -> 0 <= b' < 1 -> sqrt u * cos (2 * PI * b) = sqrt u' * cos (2 * PI * b') -> sqrt u * sin (2 * PI * b) = sqrt u' * sin (2 * PI * b') -> u = u' /\ b = b'.
Proof.
  intros U U' B B' E F. pose proof (sqrt_lt_R0 u U). pose proof (sqrt_lt_R0 u' U').
  assert (G : u = u').
  { rewrite <- (sqrt_sqrt u), <- (sqrt_sqrt u') by lra. pose proof (sin2_cos2 (2 * PI * b)) as S1. pose proof (sin2_cos2 (2 * PI * b')) as S2. unfold Rsqr in *.
    transitivity ((sqrt u * cos (2 * PI * b)) * (sqrt u * cos (2 * PI * b)) + (sqrt u * sin (2 * PI * b)) * (sqrt u * sin (2 * PI * b))).
    - transitivity (sqrt u * sqrt u * (sin (2 * PI * b) * sin (2 * PI * b) + cos (2 * PI * b) * cos (2 * PI * b))); [rewrite S1; ring|ring].
    - rewrite E, F. transitivity (sqrt u' * sqrt u' * (sin (2 * PI * b') * sin (2 * PI * b') + cos (2 * PI * b') * cos (2 * PI * b'))); [ring|rewrite S2; ring]. }
  split; auto. subst u'. apply angle_unique; auto; apply (Rmult_eq_reg_l (sqrt u)); lra.
Qed.
(** diffuse lobe *)
Theorem C108_diffuse_onto : forall wo f p wi, orthonormal (f_t f) (f_b f) (f_n f) -> 0 < dot wo (f_n f) -> specular_share p < 1 -> unit wi -> 0 < dot wi (f_n f) ->
  exists v1 v2, specular_share p <= v1 < 1 /\ 0 <= v2 < 1 /\ direction wo f p v1 v2 = wi.
Proof.
  intros wo f p wi O N W U P. set (w := specular_share p) in *. set (l := world_to_local wi f). assert (L1 : dot l l = 1) by (unfold l; rewrite wtl_len; auto).
  assert (LZ : 0 < vz l) by exact P. unfold dot in L1. destruct (polar_exists (vx l) (vy l)) as (u & b & B1 & B2 & B3 & B4 & B5); [nra|].
  exists (w + (1 - w) * u), b. split; [nra|]. split; auto. rewrite dir_diff by (fold w; nra || auto). fold w. replace ((w + (1 - w) * u - w) / (1 - w)) with u by (field; lra).
  rewrite <- (world_local_world wi f O). f_equal. fold l. unfold cosine_hemisphere. cbn [hs_dir]. rewrite Rmax_right by lra. apply v3_eq; cbn [vx vy vz]; auto.
  rewrite B5. replace (1 - (vx l * vx l + vy l * vy l)) with (vz l * vz l) by lra. apply sqrt_square. lra.
Qed.
Theorem C108_diffuse_once : forall wo f p v1 v2 v1' v2', orthonormal (f_t f) (f_b f) (f_n f) -> 0 < dot wo (f_n f) -> specular_share p < v1 < 1 -> specular_share p < v1' < 1 ->
  0 <= v2 < 1 -> 0 <= v2' < 1 -> direction wo f p v1 v2 = direction wo f p v1' v2' -> v1 = v1' /\ v2 = v2'.
Proof.
  intros wo f p v1 v2 v1' v2' O N A A' B B' E. set (w := specular_share p) in *. rewrite !dir_diff in E by (fold w; lra || auto). fold w in E.
  assert (INJ : forall d e, local_to_world d f = local_to_world e f -> d = e).
  { intros d e Q. assert (Z : dot (vsub d e) (vsub d e) = 0). { rewrite <- (local_world_dot (vsub d e) (vsub d e) f O). replace (local_to_world (vsub d e) f) with (vsub (local_to_world d f) (local_to_world e f)) by (unfold local_to_world; apply v3_eq; cbn; ring). rewrite Q. unfold dot, vsub; cbn; ring. }
    assert (SQ : forall x y z, x * x + y * y + z * z = 0 -> x = 0 /\ y = 0 /\ z = 0) by (clear; intros; nra). unfold dot in Z. apply SQ in Z. cbn [vx vy vz vsub] in Z. apply v3_eq; lra. }
  apply INJ in E. unfold cosine_hemisphere in E. cbn [hs_dir] in E. pose proof (f_equal vx E) as E1. pose proof (f_equal vy E) as E2. cbn [vx vy] in E1, E2.
  assert (PO : forall x, w < x -> 0 < (x - w) / (1 - w)) by (intros; apply Rdiv_lt_0_compat; lra).
  destruct (polar_unique _ _ _ _ (PO v1 ltac:(lra)) (PO v1' ltac:(lra)) B B' E1 E2) as (G1 & G2). split; auto.
  apply (Rmult_eq_compat_r (1 - w)) in G1. unfold Rdiv in G1. rewrite !Rmult_assoc, !Rinv_l in G1 by lra. lra.
Qed.
(** microfacet lobe *)
Lemma zero_vec (x : vec3) : dot x x = 0 -> x = vzero.
Proof. intros Z. assert (SQ : forall x y z, x * x + y * y + z * z = 0 -> x = 0 /\ y = 0 /\ z = 0) by (clear; intros; nra). unfold dot in Z. apply SQ in Z. apply v3_eq; cbn; lra. Qed.
Lemma zero_diff (x y : vec3) : dot (vsub x y) (vsub x y) = 0 -> x = y.
Proof. intros Z. apply zero_vec in Z. pose proof (f_equal vx Z). pose proof (f_equal vy Z). pose proof (f_equal vz Z). cbn in *. apply v3_eq; lra. Qed.
(* the mirror direction determines the half vector, and conversely *)
Lemma mirror_half v h : dot v v = 1 -> dot h h = 1 -> 0 < dot h v -> normalize (vadd v (reflect (vscale (-1) v) h)) = h.
Proof.
  intros V H P. rewrite mirror_eq. replace (vadd v _) with (vscale (2 * dot h v) h) by (apply v3_eq; cbn [vx vy vz vadd vscale]; ring). apply normalize_vscale; [lra|auto].
Qed.
Lemma half_of v w : dot v v = 1 -> dot w w = 1 -> 0 < vz v -> 0 < vz w -> let h := normalize (vadd v w) in dot h h = 1 /\ 0 < vz h /\ 0 < dot h v /\ reflect (vscale (-1) v) h = w.
Proof.
  intros V W PV PW h. set (g := vadd v w). assert (GG : dot g g = 2 * (1 + dot w v)).
  { transitivity (dot v v + 2 * dot w v + dot w w); [unfold g, dot, vadd; cbn [vx vy vz]; ring|]. rewrite V, W. ring. }
  assert (GP : 0 < dot g g) by (unfold g, dot, vadd; cbn [vx vy vz]; assert (0 < (vz v + vz w) * (vz v + vz w)) by nra; set (x := vx v + vx w); set (y := vy v + vy w); nra).
  assert (L : 0 < vlen g) by (apply sqrt_lt_R0; auto). assert (LL : vlen g * vlen g = dot g g) by (unfold vlen; apply sqrt_sqrt; lra).
  assert (HV : dot h v = / vlen g * (1 + dot w v)). { unfold h, normalize. rewrite dot_scale_l. f_equal. unfold g. rewrite dot_add_l, V. reflexivity. }
  split; [apply normalize_unit; auto|]. split; [unfold h, normalize, vscale; cbn [vz]; apply Rmult_lt_0_compat; [apply Rinv_0_lt_compat; auto|unfold g; cbn; lra]|].
  split; [rewrite HV; apply Rmult_lt_0_compat; [apply Rinv_0_lt_compat; auto|lra]|].
  rewrite mirror_eq, HV. replace (1 + dot w v) with (vlen g * vlen g / 2) by (rewrite LL, GG; field). unfold h, normalize. fold g. set (q := vlen g) in *. clearbody q.
  replace (vscale (2 * (/ q * (q * q / 2))) (vscale (/ q) g)) with g by (apply v3_eq; cbn [vx vy vz vscale]; field; lra). unfold g. apply v3_eq; cbn; ring.
Qed.
Section Reach.
Variables (v : vec3) (rough : R).
Hypothesis Hv : dot v v = 1. Hypothesis Hz : 0 < vz v. Hypothesis Hr : 0 < rough. Hypothesis Hc : off_axis v rough.
Let Vh := normalize (stretched v rough). Let T1 := tangent1 v rough. Let T2 := cross Vh T1. Let s := swarp v rough. Let al := rough * rough.
Lemma T_facts : vz T1 = 0 /\ 0 <= vz T2 /\ vz T2 * vz T2 = 1 - vz Vh * vz Vh /\ 0 < vz Vh.
Proof.
  pose proof (Vh_unit v rough Hz) as U. fold Vh in U. pose proof (Vh_z v rough) as Z. fold Vh in Z. pose proof (m_pos v rough Hz) as M.
  assert (P : 0 < vz Vh) by (rewrite Z; apply Rdiv_lt_0_compat; auto).
  unfold T2, T1, tangent1. cbv zeta. fold Vh. pose proof Hc as C. unfold off_axis in C. fold Vh in C. unfold Rltb. destruct (Rlt_dec _ _) as [L|L].
  - set (l := vx Vh * vx Vh + vy Vh * vy Vh) in *. assert (0 < l) by lra. assert (Q : 0 < sqrt l) by (apply sqrt_lt_R0; auto). pose proof (sqrt_sqrt l ltac:(lra)) as QQ.
    unfold cross, vscale. cbn [vx vy vz].
    assert (E : vx Vh * (/ sqrt l * vx Vh) - vy Vh * (/ sqrt l * - vy Vh) = sqrt l). { transitivity (/ sqrt l * l); [unfold l at 4; ring|]. rewrite <- QQ at 2. field. lra. }
    rewrite E. split; [ring|]. split; [lra|]. split; auto. rewrite QQ. unfold l. unfold dot in U. lra.
  - destruct C as [C|(C1 & C2)]; [lra|]. assert (X : vx Vh = 0) by (unfold Vh, normalize, vscale, stretched; cbn [vx]; rewrite C1; ring). assert (Y : vy Vh = 0) by (unfold Vh, normalize, vscale, stretched; cbn [vy]; rewrite C2; ring).
    unfold cross. cbn [vx vy vz]. unfold dot in U. rewrite X, Y in *. repeat split; try lra.
Qed.
Lemma frame_coords N : frame_of v rough (V3 (dot N T1) (dot N T2) (dot N Vh)) = N.
Proof.
  destruct (tangents v rough Hz Hc) as (O & _). fold Vh T1 in O. fold T2 in O.
  exact (world_local_world N (Fr T1 T2 Vh) O).
Qed.
Lemma frame_inj a b : frame_of v rough a = frame_of v rough b -> a = b.
Proof.
  intros E. apply zero_diff. rewrite <- (proj1 (frame_of_dot v rough Hz Hc (vsub a b))).
  replace (frame_of v rough (vsub a b)) with (vsub (frame_of v rough a) (frame_of v rough b)) by (unfold frame_of; apply v3_eq; cbn; ring). rewrite E. unfold dot, vsub; cbn; ring.
Qed.
Lemma half_onto h : dot h h = 1 -> 0 < vz h -> 0 < dot h v -> exists u b, 0 <= u < 1 /\ 0 <= b < 1 /\ ggx_vndf_half v rough u b = h.
Proof.
  intros HU HZ HV. assert (AL : 0 < al) by (unfold al; nra).
  set (g := V3 (vx h / al) (vy h / al) (vz h)). assert (GP : 0 < dot g g) by (unfold g, dot; cbn [vx vy vz]; assert (0 < vz h * vz h) by nra; set (x := vx h / al); set (y := vy h / al); nra).
  set (N := normalize g). assert (NU : dot N N = 1) by (apply normalize_unit; auto). assert (LP : 0 < vlen g) by (apply sqrt_lt_R0; auto).
  assert (NZ : 0 < vz N) by (unfold N, normalize, vscale; cbn [vz g]; apply Rmult_lt_0_compat; [apply Rinv_0_lt_compat; auto|auto]).
  assert (SQ : squash rough N = vscale (/ vlen g) h) by (unfold squash, N, normalize, vscale; change (rough * rough) with al; set (q := vlen g) in *; apply v3_eq; cbn [vx vy vz]; try reflexivity; unfold g; cbn [vx vy vz]; field; repeat split; lra).
  set (k := V3 (dot N T1) (dot N T2) (dot N Vh)). pose proof (frame_coords N) as FC. fold k in FC.
  assert (KU : dot k k = 1) by (rewrite <- (proj1 (frame_of_dot v rough Hz Hc k)), FC; auto).
  assert (K3 : 0 < vz k).
  { cbn [k vz]. unfold Vh, normalize. rewrite dot_comm, dot_scale_l. apply Rmult_lt_0_compat; [apply Rinv_0_lt_compat, m_pos; auto|].
    replace (dot (stretched v rough) N) with (dot (squash rough N) v) by (unfold dot, squash, stretched; cbn [vx vy vz]; ring). rewrite SQ, dot_scale_l. apply Rmult_lt_0_compat; [apply Rinv_0_lt_compat; auto|auto]. }
  destruct T_facts as (F1 & F2 & F3 & F4). pose proof (swarp_bounds v rough Hz) as SB. fold s in SB.
  assert (SE : 1 - 2 * s = - vz Vh) by (unfold s, swarp; fold Vh; lra).
  assert (NZ2 : 0 < vy k * vz T2 + vz k * vz Vh). { replace (vy k * vz T2 + vz k * vz Vh) with (vz (frame_of v rough k)); [rewrite FC; auto|]. unfold frame_of. fold Vh T1. fold T2. cbn [vx vy vz vadd vscale]. rewrite F1. ring. }
  unfold dot in KU. set (x := vx k) in *. set (y2 := vy k) in *. set (z := vz k) in *.
  assert (Q2 : 0 < 1 - x * x) by nra. pose proof (sqrt_sqrt (1 - x * x) ltac:(lra)) as QQ. assert (Q : 0 < sqrt (1 - x * x)) by (apply sqrt_lt_R0; auto). set (q := sqrt (1 - x * x)) in *.
  assert (Y2 : - q < y2 < q) by (split; nra).
  assert (LOW : - vz Vh * q < y2).
  { destruct (Rle_dec 0 y2); [assert (0 < vz Vh * q) by (apply Rmult_lt_0_compat; auto); lra|]. set (V := vz Vh) in *. set (T := vz T2) in *.
    assert (A1 : - y2 * T < z * V) by lra. assert (A0 : 0 <= - y2 * T) by (apply Rmult_le_pos; lra).
    assert (A2 : (y2 * T) * (y2 * T) < (z * V) * (z * V)) by (assert (0 <= z * V) by lra; nra).
    assert (A3 : y2 * y2 * (1 - V * V) < z * z * (V * V)) by (rewrite <- F3; lra || (replace (y2 * y2 * (T * T)) with (y2 * T * (y2 * T)) by ring; replace (z * z * (V * V)) with (z * V * (z * V)) by ring; lra)).
    assert (A4 : y2 * y2 < q * q * (V * V)) by (rewrite QQ; nra).
    assert (A5 : y2 * y2 < (V * q) * (V * q)) by lra. assert (0 < V * q) by (apply Rmult_lt_0_compat; auto). nra. }
  set (y := (y2 - (1 - s) * q) / s). assert (YE : (1 - s) * q + s * y = y2) by (unfold y; field; lra).
  assert (YB : - q < y < q). { assert (1 - 2 * s < 1) by lra. split.
    - apply (Rmult_lt_reg_l s); [lra|]. nra.
    - apply (Rmult_lt_reg_l s); [lra|]. nra. }
  destruct (polar_exists x y) as (u & b & B1 & B2 & B3 & B4 & B5); [nra|]. exists u, b. split; auto. split; auto.
  rewrite half_eq by auto. cbv zeta. fold s.
  assert (KE : K s u b = k).
  { assert (E1 : k1 u b = x) by exact B3. assert (E2 : k2 s u b = y2) by (unfold k2; rewrite E1; fold q; rewrite B4; exact YE).
    unfold K, k3. rewrite E1, E2. replace (1 - x * x - y2 * y2) with (z * z) by lra. rewrite sqrt_square by lra. apply v3_eq; reflexivity. }
  rewrite KE, FC. rewrite Rmax_right by lra. change (normalize (squash rough N) = h). rewrite SQ. apply normalize_vscale; auto. apply Rinv_0_lt_compat; auto.
Qed.
Lemma half_once u b u' b' : 0 < u < 1 -> 0 < u' < 1 -> 0 <= b < 1 -> 0 <= b' < 1 -> 0 < vz (ggx_vndf_half v rough u b) ->
  ggx_vndf_half v rough u b = ggx_vndf_half v rough u' b' -> u = u' /\ b = b'.
Proof.
  intros U U' B B' P E. assert (AL : 0 < al) by (unfold al; nra). assert (P' : 0 < vz (ggx_vndf_half v rough u' b')) by (rewrite <- E; auto).
  assert (NP : forall u b, 0 < u < 1 -> 0 < vz (ggx_vndf_half v rough u b) -> ggx_vndf_half v rough u b = normalize (squash rough (frame_of v rough (K s u b))) /\ 0 < vz (frame_of v rough (K s u b))).
  { clear u b u' b' U U' B B' P E P'. intros u b U P. rewrite half_eq in P |- * by lra. cbv zeta in P |- *. fold s in P |- *. destruct (Rlt_dec 0 (vz (frame_of v rough (K s u b)))) as [Q|Q].
    - rewrite Rmax_right by lra. auto.
    - exfalso. rewrite Rmax_left in P by lra. unfold normalize, vscale in P. cbn [vz] in P. lra. }
  destruct (NP u b U P) as (E1 & Z1). destruct (NP u' b' U' P') as (E2 & Z2). rewrite E1, E2 in E.
  pose proof (swarp_bounds v rough Hz) as SB. fold s in SB.
  destruct (K_unit s u b SB U) as (KU & _). destruct (K_unit s u' b' SB U') as (KU' & _).
  set (N := frame_of v rough (K s u b)) in *. set (N' := frame_of v rough (K s u' b')) in *.
  assert (NU : dot N N = 1) by (unfold N; rewrite (proj1 (frame_of_dot v rough Hz Hc _)); auto). assert (NU' : dot N' N' = 1) by (unfold N'; rewrite (proj1 (frame_of_dot v rough Hz Hc _)); auto).
  assert (NE : N = N').
  { assert (PL : forall n, 0 < vz n -> 0 < vlen (squash rough n)) by (intros n Hn; apply sqrt_lt_R0; unfold dot, squash; cbn [vx vy vz]; assert (0 < vz n * vz n) by nra; set (x := _ * vx n); set (y := _ * vy n); nra).
    pose proof (PL N Z1) as L1. pose proof (PL N' Z2) as L2. set (m := vlen (squash rough N)) in *. set (m' := vlen (squash rough N')) in *.
    pose proof (f_equal vx E) as Ex. pose proof (f_equal vy E) as Ey. pose proof (f_equal vz E) as Ez. unfold normalize, vscale, squash in Ex, Ey, Ez. cbn [vx vy vz] in Ex, Ey, Ez.
    change (/ m * (al * vx N) = / m' * (al * vx N')) in Ex. change (/ m * (al * vy N) = / m' * (al * vy N')) in Ey. change (/ m * vz N = / m' * vz N') in Ez.
    set (k := m / m'). assert (K0 : 0 < k) by (apply Rdiv_lt_0_compat; auto).
    assert (X : vx N = k * vx N') by (apply (Rmult_eq_reg_l (/ m * al)); [|apply Rmult_integral_contrapositive_currified; [apply Rinv_neq_0_compat; lra|lra]]; transitivity (/ m * (al * vx N)); [ring|]; rewrite Ex; unfold k; field; lra).
    assert (Y : vy N = k * vy N') by (apply (Rmult_eq_reg_l (/ m * al)); [|apply Rmult_integral_contrapositive_currified; [apply Rinv_neq_0_compat; lra|lra]]; transitivity (/ m * (al * vy N)); [ring|]; rewrite Ey; unfold k; field; lra).
    assert (Zz : vz N = k * vz N') by (apply (Rmult_eq_reg_l (/ m)); [|apply Rinv_neq_0_compat; lra]; rewrite Ez; unfold k; field; lra).
    assert (KK : k * k = 1). { rewrite <- NU. transitivity (k * k * dot N' N'); [rewrite NU'; ring|]. unfold dot. rewrite X, Y, Zz. ring. }
    assert (K1 : k = 1) by nra. rewrite K1 in *. apply v3_eq; lra. }
  unfold N, N' in NE. apply frame_inj in NE. pose proof (f_equal vx NE) as Kx. pose proof (f_equal vy NE) as Ky. cbn [vx vy K] in Kx, Ky.
  apply polar_unique; try lra; auto. unfold k2 in Ky. rewrite Kx in Ky. apply (Rmult_eq_reg_l s); lra.
Qed.
End Reach.
Lemma rough_pos p : 0 < clamp (p_roughness p) min_roughness 1.
Proof. pose proof (clamp_bounds (p_roughness p) min_roughness 1 ltac:(unfold min_roughness; lra)). unfold min_roughness in *. lra. Qed.
(* every direction above the surface is reached through the microfacet lobe *)
Theorem C108_specular_onto_partial : forall wo f p wi, orthonormal (f_t f) (f_b f) (f_n f) -> unit wo -> regular_view wo f p -> unit wi -> 0 < dot wi (f_n f) ->
  exists u1 u2, 0 <= u1 < specular_share p /\ 0 <= u2 < 1 /\ direction wo f p u1 u2 = wi.
Proof.
  intros wo f p wi O U RV UI P. pose proof (regular_off_axis wo f p RV U O) as OA. destruct RV as (G & _). assert (N : 0 < dot wo (f_n f)) by lra.
  set (v := world_to_local wo f) in *. set (r := clamp _ _ _) in OA. pose proof (share_bounds p) as SB. set (w := specular_share p) in *.
  assert (VU : dot v v = 1) by (unfold v; rewrite wtl_len; auto). set (l := world_to_local wi f). assert (LU : dot l l = 1) by (unfold l; rewrite wtl_len; auto).
  destruct (half_of v l VU LU N P) as (H1 & H2 & H3 & H4). set (h := normalize (vadd v l)) in *.
  destruct (half_onto v r N (rough_pos p) OA h H1 H2 H3) as (u & b & B1 & B2 & B3). exists (w * u), b. split; [nra|]. split; auto.
  destruct (dir_spec wo f p (w * u) b N) as (D & _); [fold w; nra|]. cbv zeta in D. fold w v r in D. replace (w * u / w) with u in D by (field; lra). rewrite B3, H4 in D.
  rewrite D by exact P. apply world_local_world. exact O.
Qed.
(* and only once *)
Theorem C108_specular_once_partial : forall wo f p u1 u2 u1' u2', orthonormal (f_t f) (f_b f) (f_n f) -> unit wo -> regular_view wo f p ->
  0 < u1 < specular_share p -> 0 < u1' < specular_share p -> 0 <= u2 < 1 -> 0 <= u2' < 1 -> 0 < s_pdf (sample CookTorrance wo f p u1 u2) -> 0 < s_pdf (sample CookTorrance wo f p u1' u2') ->
  direction wo f p u1 u2 = direction wo f p u1' u2' -> u1 = u1' /\ u2 = u2'.
Proof.
  intros wo f p u1 u2 u1' u2' O U RV A A' B B' P P' E. pose proof (regular_off_axis wo f p RV U O) as OA. destruct RV as (G & _). assert (N : 0 < dot wo (f_n f)) by lra.
  destruct (dir_spec wo f p u1 u2 N ltac:(lra)) as (D1 & D2). destruct (dir_spec wo f p u1' u2' N ltac:(lra)) as (D1' & D2'). cbv zeta in D1, D2, D1', D2'.
  specialize (D2 P). specialize (D1 D2). specialize (D2' P'). specialize (D1' D2'). rewrite D1, D1' in E.
  pose proof (share_bounds p) as SB. set (w := specular_share p) in *. set (v := world_to_local wo f) in *. set (r := clamp _ _ _) in *.
  assert (VU : dot v v = 1) by (unfold v; rewrite wtl_len; auto).
  assert (IN : forall x, 0 < x < w -> 0 < x / w < 1). { intros x X. split; [apply Rdiv_lt_0_compat; lra|]. apply (Rmult_lt_reg_r w); [lra|]. unfold Rdiv. rewrite Rmult_assoc, Rinv_l by lra. lra. }
  destruct (mirror_area v r (u1 / w) u2 VU (rough_pos p) OA (IN _ A) ltac:(exact G) D2) as (DP & HU & HZ & _). destruct (mirror_area v r (u1' / w) u2' VU (rough_pos p) OA (IN _ A') ltac:(exact G) D2') as (DP' & HU' & HZ' & _).
  assert (INJ : reflect (vscale (-1) v) (ggx_vndf_half v r (u1 / w) u2) = reflect (vscale (-1) v) (ggx_vndf_half v r (u1' / w) u2')).
  { apply zero_diff. rewrite <- (local_world_dot _ _ f O). set (x := reflect _ _) in *. set (y := reflect _ (ggx_vndf_half v r (u1' / w) u2')) in *.
    replace (local_to_world (vsub x y) f) with (vsub (local_to_world x f) (local_to_world y f)) by (unfold local_to_world; apply v3_eq; cbn; ring). rewrite E. unfold dot, vsub; cbn; ring. }
  assert (HE : ggx_vndf_half v r (u1 / w) u2 = ggx_vndf_half v r (u1' / w) u2') by (rewrite <- (mirror_half v _ VU HU DP), <- (mirror_half v _ VU HU' DP'), INJ; reflexivity).
  destruct (half_once v r N (rough_pos p) OA _ _ _ _ (IN _ A) (IN _ A') B B' HZ HE) as (Q & ->). split; auto.
  apply (Rmult_eq_compat_r w) in Q. unfold Rdiv in Q. rewrite !Rmult_assoc, !Rinv_l in Q by lra. lra.
Qed.
Print Assumptions C108_diffuse_onto. Print Assumptions C108_diffuse_once. Print Assumptions C108_specular_onto_partial. Print Assumptions C108_specular_once_partial.
Lemma pdf_pos wo wi f p : orthonormal (f_t f) (f_b f) (f_n f) -> unit wo -> unit wi -> 0 < dot wo (f_n f) -> 0 < dot wi (f_n f) -> 0 < pdf CookTorrance wo wi (f_n f) p.
Proof.
  intros O U UI A B. rewrite pdf_unfold by auto. pose proof (share_bounds p) as SB. pose proof PI_RGT_0 as PP. pose proof (rough_pos p) as RP.
  assert (0 <= (1 - specular_share p) * (dot wi (f_n f) / PI)) by (apply Rmult_le_pos; [lra|apply Rlt_le, Rdiv_lt_0_compat; auto]).
  assert (A2 : 0 < alpha_of p * alpha_of p). { change (alpha_of p) with (clamp (p_roughness p) min_roughness 1 * clamp (p_roughness p) min_roughness 1). set (r := clamp _ _ _) in *. assert (0 < r * r) by nra. nra. }
  set (a2 := alpha_of p * alpha_of p) in *. set (c := Rmax _ 0).
  assert (CB : 0 <= c <= 1).
  { unfold c. split; [apply Rmax_r|]. apply Rmax_lub; [|lra]. destruct (normalize_cases (vadd wo wi)) as [E|E].
    - destruct O as (_ & _ & N1 & _). apply (unit_dot_le (f_n f) _ N1 E).
    - rewrite E. unfold dot. cbn. lra. }
  assert (0 < ggx_D c a2). { unfold ggx_D. cbv zeta. assert (0 < c * c * (a2 - 1) + 1) by (assert (c * c <= 1) by nra; nra). apply Rdiv_lt_0_compat; auto. apply Rmult_lt_0_compat; [apply Rmult_lt_0_compat|]; auto. }
  assert (0 < smith_G1 (dot wo (f_n f)) a2). { unfold smith_G1. cbv zeta. apply Rdiv_lt_0_compat; [lra|]. match goal with |- context [sqrt ?x] => pose proof (sqrt_pos x) end. lra. }
  assert (0 < specular_share p * (ggx_D c a2 * smith_G1 (dot wo (f_n f)) a2 / (4 * dot wo (f_n f)))); [|lra].
  apply Rmult_lt_0_compat; [lra|]. apply Rdiv_lt_0_compat; [|lra]. apply Rmult_lt_0_compat; auto.
Qed.
Lemma spec_valid wo f p u1 u2 : orthonormal (f_t f) (f_b f) (f_n f) -> unit wo -> 0 < dot wo (f_n f) -> u1 < specular_share p ->
  0 < vz (reflect (vscale (-1) (world_to_local wo f)) (ggx_vndf_half (world_to_local wo f) (clamp (p_roughness p) min_roughness 1) (u1 / specular_share p) u2)) ->
  0 < s_pdf (sample CookTorrance wo f p u1 u2).
Proof.
  intros O U N L P. cbn [sample]. unfold sample_ct. cbv zeta. replace (5 / 10 * (1 + clamp (p_metallic p) 0 1)) with (specular_share p) by (unfold specular_share; lra).
  rewrite (dot_comm (f_n f) wo), (proj2 (Rleb_false (dot wo (f_n f)) 0) N), (proj2 (Rltb_true u1 (specular_share p)) L), (proj2 (Rleb_false _ 0) P).
  set (w := reflect _ _) in *. assert (WN : dot (f_n f) (local_to_world w f) = vz w) by (rewrite dot_comm; apply ctw_dir; auto).
  assert (WU : unit (local_to_world w f)).
  { unfold unit. rewrite (proj1 (ctw_dir w f O)). unfold w. rewrite reflect_len. - unfold dot, vscale. cbn [vx vy vz world_to_local]. pose proof (wtl_len wo f O) as Q. unfold unit in U. rewrite U in Q. unfold dot in Q at 1. cbn [vx vy vz world_to_local] in Q. lra.
    - unfold ggx_vndf_half. cbv zeta. apply normalize_cases. }
  rewrite WN, (proj2 (Rleb_false _ 0) P). assert (Q : 0 < pdf_ct wo (local_to_world w f) (f_n f) p) by (apply (pdf_pos wo _ f p O U WU N); rewrite dot_comm, WN; auto).
  rewrite (proj2 (Rleb_false _ 0) Q). exact Q.
Qed.
(* a half metal of roughness 1 seen from straight above: random numbers of each lobe that lead to the same direction, 36.9 degrees from the normal *)
Example C108_case : let f := Fr (V3 1 0 0) (V3 0 1 0) (V3 0 0 1) in let wo := V3 0 0 1 in let p := Pa 1 1 (1 / 2) in
  orthonormal (f_t f) (f_b f) (f_n f) /\ unit wo /\ regular_view wo f p /\ specular_share p = 3 / 4 /\
  exists u1 u2 v1 v2, 0 < u1 < specular_share p /\ specular_share p < v1 < 1 /\ direction wo f p u1 u2 = V3 (6 / 10) 0 (8 / 10) /\ direction wo f p v1 v2 = V3 (6 / 10) 0 (8 / 10) /\
    0 < s_pdf (sample CookTorrance wo f p u1 u2).
Proof.
  cbn zeta. set (f := Fr _ _ _). set (wo := V3 0 0 1). set (p := Pa 1 1 (1 / 2)). set (wi := V3 (6 / 10) 0 (8 / 10)).
  assert (O : orthonormal (f_t f) (f_b f) (f_n f)) by (unfold orthonormal, unit, dot; cbn; lra). assert (U : unit wo) by (unfold unit, dot; cbn; lra). assert (UI : unit wi) by (unfold unit, dot; cbn; lra).
  assert (RV : regular_view wo f p) by (unfold regular_view, dot; cbn; split; [lra|left; lra]).
  assert (S : specular_share p = 3 / 4) by (unfold specular_share, clamp, Rltb; cbn; destruct (Rlt_dec (1 / 2) 0); [lra|]; destruct (Rlt_dec 1 (1 / 2)); lra).
  split; auto. split; auto. split; auto. split; auto.
  assert (N : 0 < dot wo (f_n f)) by (unfold dot; cbn; lra). assert (P : 0 < dot wi (f_n f)) by (unfold dot; cbn; lra).
  destruct (C108_diffuse_onto wo f p wi O N ltac:(lra) UI P) as (v1 & v2 & V1 & V2 & EV).
  assert (VL : world_to_local wo f = V3 0 0 1) by (unfold world_to_local, dot; apply v3_eq; cbn; ring).
  destruct (C108_specular_onto_partial wo f p wi O U RV UI P) as (u1 & u2 & U1 & U2 & EU).
  exists u1, u2, v1, v2. rewrite S in *.
  assert (NZ1 : v1 <> 3 / 4).
  { intros ->. rewrite dir_diff in EV by (rewrite ?S; lra || auto). rewrite S in EV. replace ((3 / 4 - 3 / 4) / (1 - 3 / 4)) with 0 in EV by field. pose proof (f_equal vx EV) as E. unfold local_to_world, cosine_hemisphere in E. cbn in E. rewrite sqrt_0 in E. lra. }
  set (r := clamp (p_roughness p) min_roughness 1). assert (R1 : r = 1) by (unfold r, clamp, min_roughness, Rltb; cbn; destruct (Rlt_dec 1 (1 / 100)); [lra|]; destruct (Rlt_dec 1 1); lra).
  assert (ST : stretched (V3 0 0 1) 1 = V3 0 0 1) by (unfold stretched; apply v3_eq; cbn; ring).
  assert (NM : normalize (V3 0 0 1) = V3 0 0 1). { unfold normalize, vlen, dot. cbn. replace (0 * 0 + 0 * 0 + 1 * 1) with 1 by ring. rewrite sqrt_1, Rinv_1. apply v3_eq; cbn; ring. }
  set (wl := reflect (vscale (-1) (V3 0 0 1)) (ggx_vndf_half (V3 0 0 1) 1 (u1 / (3 / 4)) u2)).
  (* the lobe's local direction is what direction returns, unless it is below the surface, when the direction would be the zero vector *)
  assert (WZ : 0 < vz wl).
  { destruct (Rlt_dec 0 (vz wl)) as [|B]; auto. exfalso. unfold direction in EU. cbn [sample] in EU. unfold sample_ct in EU. cbv zeta in EU.
    replace (5 / 10 * (1 + clamp (p_metallic p) 0 1)) with (3 / 4) in EU by (rewrite <- S; unfold specular_share; lra).
    rewrite (dot_comm (f_n f) wo), (proj2 (Rleb_false (dot wo (f_n f)) 0) N), (proj2 (Rltb_true u1 (3 / 4)) ltac:(lra)), VL in EU. fold r in EU. rewrite R1 in EU. fold wl in EU. rewrite (proj2 (Rleb_true (vz wl) 0) ltac:(lra)) in EU.
    cbn in EU. pose proof (f_equal vx EU) as E. cbn in E. lra. }
  assert (PD : 0 < s_pdf (sample CookTorrance wo f p u1 u2)) by (apply spec_valid; auto; rewrite ?S; try lra; rewrite VL; fold r; rewrite R1; exact WZ).
  assert (NZ2 : u1 <> 0).
  { intros ->. destruct (dir_spec wo f p 0 u2 N) as (D & _); [rewrite S; lra|]. cbv zeta in D. rewrite VL, S in D. fold r in D. rewrite R1 in D. fold wl in D. rewrite (D WZ) in EU.
    assert (HN : ggx_vndf_half (V3 0 0 1) 1 (0 / (3 / 4)) u2 = V3 0 0 1).
    { rewrite half_eq by (cbn; lra). cbv zeta. replace (0 / (3 / 4)) with 0 by field. unfold frame_of, swarp, tangent1. cbv zeta. rewrite ST, NM. unfold Rltb. cbn [vx vy vz]. destruct (Rlt_dec (/ 10 ^ 7) (0 * 0 + 0 * 0)); [lra|].
      unfold K, k3, k2, k1. rewrite sqrt_0. cbn [vx vy vz vadd vscale cross]. replace (1 - 5 / 10 * (1 + 1)) with 0 by field. rewrite !Rmult_0_l, !Rmult_0_r, !Rplus_0_l, ?Rminus_0_r, ?Rmult_0_l, ?Rmult_0_r, ?Rplus_0_l, ?Rminus_0_r, sqrt_1, ?Rmult_1_r, ?Rplus_0_l.
      rewrite Rmax_right by lra. transitivity (normalize (V3 0 0 1)); [f_equal; apply v3_eq; cbn; ring|exact NM]. }
    unfold wl in EU. rewrite HN in EU. pose proof (f_equal vx EU) as E. unfold local_to_world, reflect, dot in E. cbn in E. lra. }
  split; [lra|]. split; [lra|]. auto.
Qed.
