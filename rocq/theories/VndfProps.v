(* C108: the density the Cook-Torrance BSDF reports is the density it samples with. *)
From Coq Require Import Reals Lra Lia Psatz.
From Coquelicot Require Import Coquelicot.
From Verif Require Import Common Vec3 SpectralProofs2 LightModel LightProofs BsdfModel BsdfSpec BsdfProps SolidSpec VndfProofs.
Open Scope R_scope.

(* the share of samples that go through the microfacet lobe *)
Definition specular_share (p : params) : R := (1 + clamp (p_metallic p) 0 1) / 2.
(* the roughness in use, squared *)
Definition alpha_of (p : params) : R := let r := clamp (p_roughness p) (1 / 100) 1 in r * r.
(* the view direction is straight above, or far enough from the normal for a tangent to be taken from it; and not closer to the horizon than 0.006 degrees *)
Definition regular_view (wo : vec3) (f : frame) (p : params) : Prop :=
  / 10 ^ 4 <= dot wo (f_n f) /\
  let x := dot wo (f_t f) in let y := dot wo (f_b f) in let z := dot wo (f_n f) in let a2 := alpha_of p * alpha_of p in
  (x = 0 /\ y = 0) \/ / 10 ^ 7 * (a2 * (x * x + y * y) + z * z) < a2 * (x * x + y * y).
Definition direction (wo : vec3) (f : frame) (p : params) (u1 u2 : R) : vec3 := s_wi (sample CookTorrance wo f p u1 u2).

Lemma local_world_dot d e f : orthonormal (f_t f) (f_b f) (f_n f) -> dot (local_to_world d f) (local_to_world e f) = dot d e.
Proof.
  intros (H1 & H2 & H3 & H4 & H5 & H6). unfold unit in *. unfold local_to_world. set (t := f_t f) in *. set (b := f_b f) in *. set (n := f_n f) in *. clearbody t b n.
  transitivity (vx d * vx e * dot t t + vy d * vy e * dot b b + vz d * vz e * dot n n + (vx d * vy e + vy d * vx e) * dot t b + (vx d * vz e + vz d * vx e) * dot t n + (vy d * vz e + vz d * vy e) * dot b n).
  - unfold dot, vadd, vscale. cbn [vx vy vz]. ring.
  - rewrite H1, H2, H3, H4, H5, H6. unfold dot. ring.
Qed.
Lemma world_local_world w f : orthonormal (f_t f) (f_b f) (f_n f) -> local_to_world (world_to_local w f) f = w.
Proof.
  intros O. pose proof (wtl_len w f O) as L. pose proof (local_world_dot (world_to_local w f) (world_to_local w f) f O) as D.
  assert (X : dot (local_to_world (world_to_local w f) f) w = dot (world_to_local w f) (world_to_local w f)).
  { unfold local_to_world, world_to_local. cbn [vx vy vz]. unfold dot, vadd, vscale. cbn [vx vy vz]. ring. }
  set (l := local_to_world (world_to_local w f) f) in *.
  assert (Z : dot (vsub l w) (vsub l w) = 0). { transitivity (dot l l - 2 * dot l w + dot w w); [unfold dot, vsub; cbn [vx vy vz]; ring|]. rewrite X, D, L. ring. }
  assert (SQ : forall x y z, x * x + y * y + z * z = 0 -> x = 0 /\ y = 0 /\ z = 0) by (clear; intros; nra).
  unfold dot in Z. apply SQ in Z. destruct Z as (Z1 & Z2 & Z3). cbn [vx vy vz vsub] in *. apply v3_eq; lra.
Qed.
Lemma velocity_world g a v f : velocity g a v -> velocity (fun t => local_to_world (g t) f) a (local_to_world v f).
Proof. intros (A & B & C). unfold local_to_world. apply velocity_comb; auto. Qed.
Lemma world_area f d e g : orthonormal (f_t f) (f_b f) (f_n f) -> Rabs (triple (local_to_world d f) (local_to_world e f) (local_to_world g f)) = Rabs (triple d e g).
Proof. intros O. unfold local_to_world. rewrite (triple_basis (f_t f) (f_b f) (f_n f)). rewrite Rabs_mult, orthonormal_triple by auto. ring. Qed.
Lemma velocity_affine g a k c v : velocity g (k * a + c) v -> velocity (fun t => g (k * t + c)) a (vscale k v).
Proof.
  intros (A & B & C). assert (D : is_derive (fun t => k * t + c) a k) by (auto_derive; [auto|]; ring).
  split; [|split]; cbn [vx vy vz vscale].
  - apply (is_derive_comp (fun s => vx (g s)) (fun t => k * t + c) a _ k A D).
  - apply (is_derive_comp (fun s => vy (g s)) (fun t => k * t + c) a _ k B D).
  - apply (is_derive_comp (fun s => vz (g s)) (fun t => k * t + c) a _ k C D).
Qed.
Lemma velocity_mirror g a v w : velocity g a w -> velocity (fun t => reflect (vscale (-1) v) (g t)) a (vadd (vscale (2 * dot w v) (g a)) (vscale (2 * dot (g a) v) w)).
Proof.
  intros V. pose proof (derive_dot g (fun _ => v) a w vzero V (velocity_const v a)) as D. cbv beta in D.
  assert (D2 : is_derive (fun t => 2 * dot (g t) v) a (2 * dot w v)). { apply is_derive_scal. replace (dot w v) with (dot w v + dot (g a) vzero) by (unfold dot; cbn [vx vy vz vzero]; ring). exact D. }
  pose proof (velocity_add _ _ a _ _ (velocity_const (vscale (-1) v) a) (velocity_scale _ g a _ _ D2 V)) as E. cbv beta in E.
  eapply velocity_eq; [|eapply velocity_ext_loc; [|exact E]].
  - apply v3_eq; cbn; ring.
  - apply filter_forall. intros t. unfold reflect. apply v3_eq; unfold dot; cbn [vx vy vz vsub vadd vscale]; ring.
Qed.
Lemma mirror_eq v h : reflect (vscale (-1) v) h = vadd (vscale (2 * dot h v) h) (vscale (-1) v).
Proof. unfold reflect. apply v3_eq; unfold dot; cbn [vx vy vz vsub vadd vscale]; ring. Qed.
Lemma unit_velocity g a w : velocity g a w -> locally a (fun t => dot (g t) (g t) = 1) -> dot (g a) w = 0.
Proof.
  intros V L. pose proof (derive_dot g g a w w V V) as D.
  assert (Z : is_derive (fun t => dot (g t) (g t)) a 0).
  { apply (is_derive_ext_loc (fun _ => 1)); [revert L; apply filter_imp; intros t E; rewrite E; reflexivity|]. apply (is_derive_const (V := R_NormedModule)). }
  apply is_derive_unique in D. apply is_derive_unique in Z. rewrite D in Z. rewrite (dot_comm w (g a)) in Z. lra.
Qed.
Lemma half_unit v rough u b : 0 < vz (ggx_vndf_half v rough u b) -> dot (ggx_vndf_half v rough u b) (ggx_vndf_half v rough u b) = 1.
Proof.
  intros H. unfold ggx_vndf_half in *. cbv zeta in *. match goal with |- dot (normalize ?x) _ = 1 => destruct (normalize_cases x) as [E|E] end; [exact E|]. rewrite E in H. cbn in H. lra.
Qed.
Lemma positive_near g a v : velocity g a v -> 0 < vz (g a) -> locally a (fun t => 0 < vz (g t)).
Proof.
  intros (_ & _ & D) P. assert (CN : continuous (fun t => vz (g t)) a) by (apply (ex_derive_continuous (V := R_NormedModule)); eexists; exact D). apply CN. apply (open_gt 0). exact P.
Qed.
Definition off_axis (v : vec3) (rough : R) : Prop := / 10 ^ 7 < vx (normalize (stretched v rough)) * vx (normalize (stretched v rough)) + vy (normalize (stretched v rough)) * vy (normalize (stretched v rough)) \/ (vx v = 0 /\ vy v = 0).
Lemma half_area' v rough a b : dot v v = 1 -> 0 < vz v -> 0 < rough -> off_axis v rough -> 0 < a < 1 -> 0 < vz (ggx_vndf_half v rough a b) ->
  / 10 ^ 4 <= vz v -> let h := ggx_vndf_half v rough a b in let a2 := rough * rough * (rough * rough) in
  exists ha hb, velocity (fun t => ggx_vndf_half v rough t b) a ha /\ velocity (fun t => ggx_vndf_half v rough a t) b hb /\ 0 < dot h v /\ dot h ha = 0 /\ dot h hb = 0 /\
  triple h ha hb * (ggx_D (vz h) a2 * smith_G1 (vz v) a2 * dot h v / vz v) = 1.
Proof.
  intros Hv Hz Hr Hc Ha Hh Hg h a2. destruct (half_area v rough Hz Hc a b Ha Hh) as (ha & hb & VA & VB & AR & LP & HU & DE & DV).
  fold h in AR, HU, DE, DV. fold a2 in AR, DE. set (L := vlen _) in *. set (s := swarp v rough) in *. destruct (K_unit s a b (swarp_bounds v rough Hz) Ha) as (_ & K3). set (k := k3 s a b) in *.
  pose proof (m_pos v rough Hz) as MP. pose proof (m_sq v rough Hv Hz) as MS. fold a2 in MS. set (m := vlen (stretched v rough)) in *.
  assert (DVP : 0 < dot h v) by (rewrite DV; apply Rdiv_lt_0_compat; [nra|auto]). pose proof PI_RGT_0 as PP.
  assert (A2 : 0 < a2) by (unfold a2; assert (0 < rough * rough) by nra; nra).
  exists ha, hb. split; auto. split; auto. split; auto. split; [|split].
  - apply (unit_velocity (fun t => ggx_vndf_half v rough t b) a ha VA). generalize (positive_near _ _ _ VA Hh). apply filter_imp. intros t Ht. apply half_unit. exact Ht.
  - apply (unit_velocity (fun t => ggx_vndf_half v rough a t) b hb VB). generalize (positive_near _ _ _ VB Hh). apply filter_imp. intros t Ht. apply half_unit. exact Ht.
  - assert (ED : ggx_D (vz h) a2 = L ^ 4 / (PI * a2)). { unfold ggx_D. cbv zeta. rewrite DE. field. repeat split; lra. }
    assert (EG : smith_G1 (vz v) a2 = 2 * vz v / (m + vz v)).
    { unfold smith_G1. cbv zeta. rewrite Rmax_left by nra.
      replace (1 + a2 * ((1 - vz v * vz v) / (vz v * vz v))) with ((m / vz v) * (m / vz v)).
      - rewrite sqrt_square by (apply Rlt_le, Rdiv_lt_0_compat; lra). field. lra.
      - replace (m / vz v * (m / vz v)) with (m * m / (vz v * vz v)) by (field; lra). rewrite MS. field. lra. }
    assert (ES : s = (m + vz v) / (2 * m)). { unfold s, swarp. rewrite (Vh_z v rough). fold m. field. lra. }
    rewrite AR, ED, EG, DV, ES. field. repeat split; lra.
Qed.
Lemma mirror_area v rough a b : dot v v = 1 -> 0 < rough -> off_axis v rough -> 0 < a < 1 -> / 10 ^ 4 <= vz v ->
  let h := ggx_vndf_half v rough a b in let a2 := rough * rough * (rough * rough) in let W u t := reflect (vscale (-1) v) (ggx_vndf_half v rough u t) in
  0 < vz (W a b) -> 
  0 < dot h v /\ dot h h = 1 /\ 0 < vz h /\
  exists wa wb, velocity (fun t => W t b) a wa /\ velocity (fun t => W a t) b wb /\ triple (W a b) wa wb * (ggx_D (vz h) a2 * smith_G1 (vz v) a2 / (4 * vz v)) = 1.
Proof.
  intros Hv Hr Hc Ha Hg h a2 W HW. assert (Hz : 0 < vz v) by lra.
  assert (Hh : 0 < vz h).
  { assert (N : 0 <= vz h). { unfold h, ggx_vndf_half. cbv zeta. unfold normalize, vscale. cbn [vz]. apply Rmult_le_pos; [|apply Rmax_l].
      match goal with |- 0 <= / ?x => destruct (Req_dec x 0) as [E|E]; [rewrite E, Rinv_0; lra|apply Rlt_le, Rinv_0_lt_compat; pose proof (sqrt_pos); assert (0 <= x) by (unfold vlen; apply sqrt_pos); lra] end. }
    destruct N as [|N]; auto. exfalso. unfold W in HW. fold h in HW. rewrite mirror_eq in HW. cbn [vz vadd vscale] in HW. rewrite <- N in HW. lra. }
  pose proof (half_unit v rough a b Hh) as HU. fold h in HU.
  destruct (half_area' v rough a b Hv Hz Hr Hc Ha Hh Hg) as (ha & hb & VA & VB & DP & P1 & P2 & AR). fold h in DP, P1, P2, AR. fold a2 in AR.
  split; auto. split; auto. split; auto.
  pose proof (velocity_mirror _ a v ha VA) as WA. pose proof (velocity_mirror _ b v hb VB) as WB. cbv beta in WA, WB. fold h in WA, WB.
  eexists. eexists. split; [exact WA|]. split; [exact WB|].
  unfold W. fold h. rewrite mirror_eq, triple_mirror by auto. rewrite <- AR. field. lra.
Qed.
(** the two branches of the sampler *)
Lemma share_bounds p : 1 / 2 <= specular_share p <= 1.
Proof. unfold specular_share. pose proof (clamp_bounds (p_metallic p) 0 1 ltac:(lra)). lra. Qed.
Lemma regular_off_axis wo f p : regular_view wo f p -> unit wo -> orthonormal (f_t f) (f_b f) (f_n f) -> off_axis (world_to_local wo f) (clamp (p_roughness p) min_roughness 1).
Proof.
  intros (G & C) U O. unfold off_axis. set (r := clamp _ _ _). cbv zeta in C. change (alpha_of p) with (r * r) in C.
  assert (R0 : 0 < r) by (unfold r; pose proof (clamp_bounds (p_roughness p) min_roughness 1 ltac:(unfold min_roughness; lra)); unfold min_roughness in *; lra).
  destruct C as [C|C]; [right; exact C|left].
  set (v := world_to_local wo f). assert (Hz : 0 < vz v) by (cbn; lra). pose proof (stretched_pos v r Hz) as SP. pose proof (m_pos v r Hz) as MP.
  unfold normalize, vscale. cbn [vx vy]. set (m := vlen (stretched v r)) in *.
  assert (MM : m * m = dot (stretched v r) (stretched v r)) by (unfold m, vlen; apply sqrt_sqrt; lra).
  apply (Rmult_lt_reg_r (m * m)); [nra|]. replace ((/ m * vx (stretched v r) * (/ m * vx (stretched v r)) + / m * vy (stretched v r) * (/ m * vy (stretched v r))) * (m * m)) with
    (vx (stretched v r) * vx (stretched v r) + vy (stretched v r) * vy (stretched v r)) by (field; lra).
  rewrite MM. unfold dot, stretched, v, world_to_local. cbn [vx vy vz]. set (x := dot wo (f_t f)) in *. set (y := dot wo (f_b f)) in *. set (z := dot wo (f_n f)) in *. clearbody x y z.
  replace (r * r * x * (r * r * x) + r * r * y * (r * r * y) + z * z) with (r * r * (r * r) * (x * x + y * y) + z * z) by ring.
  replace (r * r * x * (r * r * x) + r * r * y * (r * r * y)) with (r * r * (r * r) * (x * x + y * y)) by ring. exact C.
Qed.
Lemma dir_spec wo f p u1 u2 : 0 < dot wo (f_n f) -> u1 < specular_share p ->
  let W u t := reflect (vscale (-1) (world_to_local wo f)) (ggx_vndf_half (world_to_local wo f) (clamp (p_roughness p) min_roughness 1) u t) in
  (0 < vz (W (u1 / specular_share p) u2) -> direction wo f p u1 u2 = local_to_world (W (u1 / specular_share p) u2) f) /\
  (0 < s_pdf (sample CookTorrance wo f p u1 u2) -> 0 < vz (W (u1 / specular_share p) u2)).
Proof.
  intros N L W. unfold direction. cbn [sample]. unfold sample_ct. cbv zeta. replace (5 / 10 * (1 + clamp (p_metallic p) 0 1)) with (specular_share p) by (unfold specular_share; lra).
  rewrite (dot_comm (f_n f) wo). rewrite (proj2 (Rleb_false (dot wo (f_n f)) 0) N), (proj2 (Rltb_true u1 (specular_share p)) L).
  fold (W (u1 / specular_share p) u2). set (w := W _ _). split.
  - intros P. rewrite (proj2 (Rleb_false (vz w) 0) P). repeat (match goal with |- context [if ?c then _ else _] => destruct c end; try reflexivity).
  - intros P. destruct (Rleb (vz w) 0) eqn:E; [cbn in P; lra|]. apply Rleb_false in E. exact E.
Qed.
Lemma dir_diff wo f p u1 u2 : 0 < dot wo (f_n f) -> specular_share p <= u1 ->
  direction wo f p u1 u2 = local_to_world (hs_dir (cosine_hemisphere ((u1 - specular_share p) / (1 - specular_share p)) u2)) f.
Proof.
  intros N L. unfold direction. cbn [sample]. unfold sample_ct. cbv zeta. replace (5 / 10 * (1 + clamp (p_metallic p) 0 1)) with (specular_share p) by (unfold specular_share; lra).
  rewrite (dot_comm (f_n f) wo). rewrite (proj2 (Rleb_false (dot wo (f_n f)) 0) N), (proj2 (Rltb_false u1 (specular_share p)) L).
  repeat (match goal with |- context [if ?c then _ else _] => destruct c end; try reflexivity).
Qed.
Lemma vadd_mirror wo v h f : orthonormal (f_t f) (f_b f) (f_n f) -> v = world_to_local wo f -> vadd wo (local_to_world (reflect (vscale (-1) v) h) f) = vscale (2 * dot h v) (local_to_world h f).
Proof.
  intros O E. rewrite <- (world_local_world wo f O) at 1. rewrite <- E, mirror_eq. unfold local_to_world. apply v3_eq; cbn [vx vy vz vadd vscale]; ring.
Qed.
Lemma normalize_vscale k x : 0 < k -> dot x x = 1 -> normalize (vscale k x) = x.
Proof.
  intros K U. unfold normalize, vlen. replace (dot (vscale k x) (vscale k x)) with (k * k) by (transitivity (k * k * dot x x); [rewrite U; ring|unfold dot, vscale; cbn [vx vy vz]; ring]).
  rewrite sqrt_square by lra. apply v3_eq; cbn [vx vy vz vscale]; field; lra.
Qed.
(* the microfacet lobe: one unit of the square's area is spread over 1 / (share * D G1 / (4 cos)) of solid angle *)
Lemma spec_spread wo f p u1 u2 : orthonormal (f_t f) (f_b f) (f_n f) -> unit wo -> regular_view wo f p -> 0 < u1 < specular_share p ->
  0 < s_pdf (sample CookTorrance wo f p u1 u2) -> let wi := direction wo f p u1 u2 in let a2 := alpha_of p * alpha_of p in
  0 < dot wi (f_n f) /\ exists J, spread (direction wo f p) u1 u2 J /\ 0 < J /\
    / J = specular_share p * (ggx_D (Rmax (dot (f_n f) (normalize (vadd wo wi))) 0) a2 * smith_G1 (dot wo (f_n f)) a2 / (4 * dot wo (f_n f))).
Proof.
  intros O U RV HU HP wi a2. set (w := specular_share p) in *. pose proof (share_bounds p) as SB. fold w in SB.
  set (v := world_to_local wo f). set (r := clamp (p_roughness p) min_roughness 1).
  assert (R0 : 0 < r) by (unfold r; pose proof (clamp_bounds (p_roughness p) min_roughness 1 ltac:(unfold min_roughness; lra)); unfold min_roughness in *; lra).
  pose proof (regular_off_axis wo f p RV U O) as OA. fold v r in OA. destruct RV as (G & _).
  assert (VU : dot v v = 1) by (unfold v; rewrite wtl_len by auto; exact U). assert (VZ : vz v = dot wo (f_n f)) by reflexivity.
  assert (N : 0 < dot wo (f_n f)) by lra.
  destruct (dir_spec wo f p u1 u2 N ltac:(fold w; lra)) as (D1 & D2). cbv zeta in D1, D2. specialize (D2 HP). specialize (D1 D2). fold v r w in D1, D2. fold wi in D1.
  assert (AB : 0 < u1 / w < 1). { split; [apply Rdiv_lt_0_compat; lra|]. apply (Rmult_lt_reg_r w); [lra|]. unfold Rdiv. rewrite Rmult_assoc, Rinv_l by lra. lra. }
  destruct (mirror_area v r (u1 / w) u2 VU R0 OA AB ltac:(rewrite VZ; auto) D2) as (DP & HUn & HZ & wa & wb & VA & VB & AR). set (h := ggx_vndf_half v r (u1 / w) u2) in *.
  change (r * r * (r * r)) with a2 in AR.
  assert (WN : dot wi (f_n f) = vz (reflect (vscale (-1) v) h)) by (rewrite D1; apply ctw_dir; auto).
  split; [rewrite WN; exact D2|].
  assert (LOC1 : velocity (fun t => direction wo f p t u2) u1 (local_to_world (vscale (/ w) wa) f)).
  { eapply velocity_ext_loc; [|apply velocity_world; apply (velocity_affine (fun t => reflect (vscale (-1) v) (ggx_vndf_half v r t u2)) u1 (/ w) 0)].
    2: { replace (/ w * u1 + 0) with (u1 / w) by (unfold Rdiv; ring). exact VA. }
    pose proof (velocity_affine (fun t => reflect (vscale (-1) v) (ggx_vndf_half v r t u2)) u1 (/ w) 0 wa ltac:(replace (/ w * u1 + 0) with (u1 / w) by (unfold Rdiv; ring); exact VA)) as V2.
    pose proof (positive_near _ _ _ V2 ltac:(cbv beta; replace (/ w * u1 + 0) with (u1 / w) by (unfold Rdiv; ring); exact D2)) as P2.
    assert (C2 : locally u1 (fun t => 0 < t < w)) by (apply (locally_interval _ u1 0 w); cbn; [lra|lra|intros; lra]).
    generalize (filter_and _ _ P2 C2). apply filter_imp. intros t (Q1 & Q2). replace (/ w * t + 0) with (t / w) in * by (unfold Rdiv; ring). symmetry. apply dir_spec; auto. fold w; lra. }
  assert (LOC2 : velocity (fun t => direction wo f p u1 t) u2 (local_to_world wb f)).
  { eapply velocity_ext_loc; [|apply velocity_world; exact VB]. generalize (positive_near _ _ _ VB D2). apply filter_imp. intros t Q. symmetry. apply dir_spec; auto. fold w; lra. }
  exists (Rabs (dot wi (cross (local_to_world (vscale (/ w) wa) f) (local_to_world wb f)))).
  split. { eexists. eexists. split; [exact LOC1|]. split; [exact LOC2|reflexivity]. }
  assert (EJ : Rabs (dot wi (cross (local_to_world (vscale (/ w) wa) f) (local_to_world wb f))) = / w * Rabs (triple (reflect (vscale (-1) v) h) wa wb)).
  { change (dot wi (cross (local_to_world (vscale (/ w) wa) f) (local_to_world wb f))) with (triple wi (local_to_world (vscale (/ w) wa) f) (local_to_world wb f)). rewrite D1, world_area by auto.
    replace (triple (reflect (vscale (-1) v) h) (vscale (/ w) wa) wb) with (/ w * triple (reflect (vscale (-1) v) h) wa wb) by (unfold triple, dot, cross, vscale; cbn [vx vy vz]; ring).
    rewrite Rabs_mult, (Rabs_pos_eq (/ w)) by (apply Rlt_le, Rinv_0_lt_compat; lra). reflexivity. }
  rewrite EJ.
  assert (EH : Rmax (dot (f_n f) (normalize (vadd wo wi))) 0 = vz h).
  { rewrite D1, (vadd_mirror wo v h f O eq_refl), normalize_vscale; [|lra|rewrite local_world_dot by auto; exact HUn]. rewrite dot_comm, (proj2 (ctw_dir h f O)). apply Rmax_left. lra. }
  rewrite EH, <- VZ. set (d := ggx_D (vz h) a2 * smith_G1 (vz v) a2 / (4 * vz v)) in *. set (tr := triple _ wa wb) in *.
  assert (A2 : 0 < a2). { unfold a2. change (alpha_of p) with (r * r). assert (0 < r * r) by nra. nra. }
  assert (DP0 : 0 < d).
  { unfold d. apply Rdiv_lt_0_compat; [|lra]. apply Rmult_lt_0_compat.
    - unfold ggx_D. cbv zeta. pose proof PI_RGT_0. assert (0 < vz h * vz h * (a2 - 1) + 1). { assert (vz h * vz h <= 1). { unfold dot in HUn. nra. } nra. } apply Rdiv_lt_0_compat; [auto|]. apply Rmult_lt_0_compat; [apply Rmult_lt_0_compat|]; auto.
    - unfold smith_G1. cbv zeta. apply Rdiv_lt_0_compat; [lra|]. match goal with |- context [sqrt ?x] => pose proof (sqrt_pos x) end. lra. }
  assert (TP : 0 < tr) by nra. rewrite (Rabs_pos_eq tr) by lra. assert (W0 : 0 < / w) by (apply Rinv_0_lt_compat; lra).
  split; [nra|]. assert (ET : tr = / d) by (apply (Rmult_eq_reg_r d); [rewrite AR, Rinv_l; lra|lra]). rewrite ET. field. split; lra.
Qed.
(* the diffuse lobe *)
Lemma diff_spread wo f p u1 u2 : orthonormal (f_t f) (f_b f) (f_n f) -> 0 < dot wo (f_n f) -> specular_share p < u1 < 1 ->
  let wi := direction wo f p u1 u2 in 0 < dot wi (f_n f) /\ exists J, spread (direction wo f p) u1 u2 J /\ 0 < J /\ / J = (1 - specular_share p) * (dot wi (f_n f) / PI).
Proof.
  intros O N HU wi. set (w := specular_share p) in *. pose proof (share_bounds p) as SB. fold w in SB. pose proof PI_RGT_0 as PP.
  pose proof (dir_diff wo f p u1 u2 N ltac:(fold w; lra)) as D1. fold w in D1. fold wi in D1. set (a := (u1 - w) / (1 - w)) in *.
  assert (AB : 0 < a < 1). { unfold a. split; [apply Rdiv_lt_0_compat; lra|]. apply (Rmult_lt_reg_r (1 - w)); [lra|]. unfold Rdiv. rewrite Rmult_assoc, Rinv_l by lra. lra. }
  assert (Q0 : 0 < sqrt a) by (apply sqrt_lt_R0; lra). assert (Q1 : 0 < sqrt (1 - a)) by (apply sqrt_lt_R0; lra).
  set (g := fun u b => V3 (sqrt u * cos (2 * PI * b)) (sqrt u * sin (2 * PI * b)) (sqrt (1 - u))).
  assert (GE : forall u b, 0 < u < 1 -> hs_dir (cosine_hemisphere u b) = g u b) by (intros u b H; unfold cosine_hemisphere, g; cbn [hs_dir]; rewrite Rmax_right by lra; reflexivity).
  assert (VA : velocity (fun t => g t u2) a (V3 (cos (2 * PI * u2) / (2 * sqrt a)) (sin (2 * PI * u2) / (2 * sqrt a)) (- / (2 * sqrt (1 - a))))).
  { split; [|split]; unfold g; cbn [vx vy vz].
    - auto_derive; [lra|]. field. lra.
    - auto_derive; [lra|]. field. lra.
    - auto_derive; [lra|]. change (1 + - a) with (1 - a). field. lra. }
  assert (VB : velocity (fun t => g a t) u2 (V3 (- (2 * PI) * (sqrt a * sin (2 * PI * u2))) (2 * PI * (sqrt a * cos (2 * PI * u2))) 0)).
  { split; [|split]; unfold g; cbn [vx vy vz]; auto_derive; auto; ring. }
  assert (WN : dot wi (f_n f) = sqrt (1 - a)) by (rewrite D1, GE by auto; apply (proj2 (ctw_dir (g a u2) f O))).
  split; [rewrite WN; auto|].
  set (xa := V3 (cos _ / _) _ _) in VA. set (xb := V3 (- (2 * PI) * _) _ 0) in VB.
  assert (E : forall t, / (1 - w) * t + - w / (1 - w) = (t - w) / (1 - w)) by (intros; field; lra).
  assert (LOC1 : velocity (fun t => direction wo f p t u2) u1 (local_to_world (vscale (/ (1 - w)) xa) f)).
  { eapply velocity_ext_loc; [|apply velocity_world; apply (velocity_affine (fun t => g t u2) u1 (/ (1 - w)) (- w / (1 - w))); rewrite E; exact VA].
    assert (C2 : locally u1 (fun t => w < t < 1)) by (apply (locally_interval _ u1 w 1); cbn; [lra|lra|intros; lra]). revert C2. apply filter_imp. intros t Q.
    rewrite dir_diff by (fold w; lra). fold w. rewrite E, GE; [reflexivity|]. split; [apply Rdiv_lt_0_compat; lra|]. apply (Rmult_lt_reg_r (1 - w)); [lra|]. unfold Rdiv. rewrite Rmult_assoc, Rinv_l by lra. lra. }
  assert (LOC2 : velocity (fun t => direction wo f p u1 t) u2 (local_to_world xb f)).
  { eapply velocity_ext_loc; [|apply velocity_world; exact VB]. apply filter_forall. intros t. rewrite dir_diff by (fold w; lra). fold w a. rewrite GE by auto. reflexivity. }
  exists (Rabs (dot wi (cross (local_to_world (vscale (/ (1 - w)) xa) f) (local_to_world xb f)))).
  split. { eexists. eexists. split; [exact LOC1|]. split; [exact LOC2|reflexivity]. }
  assert (TR : triple (g a u2) (vscale (/ (1 - w)) xa) xb = / (1 - w) * (PI / sqrt (1 - a))).
  { pose proof (sin2_cos2 (2 * PI * u2)) as SC. unfold Rsqr in SC. pose proof (sqrt_sqrt a ltac:(lra)) as A1. pose proof (sqrt_sqrt (1 - a) ltac:(lra)) as A2.
    unfold triple, dot, cross, vscale, g, xa, xb. cbn [vx vy vz]. set (C := cos _) in *. set (S := sin _) in *. set (q := sqrt a) in *. set (z := sqrt (1 - a)) in *. clearbody C S q z.
    transitivity (/ (1 - w) * (PI * ((S * S + C * C) * (q * q + z * z)) / z)); [field; repeat split; lra|]. rewrite SC, A1, A2. field. lra. }
  assert (EJ : Rabs (dot wi (cross (local_to_world (vscale (/ (1 - w)) xa) f) (local_to_world xb f))) = / (1 - w) * (PI / sqrt (1 - a))).
  { change (dot wi (cross (local_to_world (vscale (/ (1 - w)) xa) f) (local_to_world xb f))) with (triple wi (local_to_world (vscale (/ (1 - w)) xa) f) (local_to_world xb f)).
    rewrite D1, GE, world_area, TR by auto. apply Rabs_pos_eq. apply Rmult_le_pos; [apply Rlt_le, Rinv_0_lt_compat; lra|apply Rlt_le, Rdiv_lt_0_compat; auto]. }
  rewrite EJ, WN. split; [apply Rmult_lt_0_compat; [apply Rinv_0_lt_compat; lra|apply Rdiv_lt_0_compat; auto]|]. field. repeat split; lra.
Qed.
Lemma pdf_unfold wo wi f p : 0 < dot wo (f_n f) -> 0 < dot wi (f_n f) -> let a2 := alpha_of p * alpha_of p in
  pdf CookTorrance wo wi (f_n f) p = specular_share p * (ggx_D (Rmax (dot (f_n f) (normalize (vadd wo wi))) 0) a2 * smith_G1 (dot wo (f_n f)) a2 / (4 * dot wo (f_n f))) + (1 - specular_share p) * (dot wi (f_n f) / PI).
Proof.
  intros A B a2. cbn [pdf]. unfold pdf_ct. cbv zeta. rewrite !(dot_comm (f_n f) wo), !(dot_comm (f_n f) wi), (proj2 (Rleb_false _ _) A), (proj2 (Rleb_false _ _) B). cbn [orb].
  replace (5 / 10 * (1 + clamp (p_metallic p) 0 1)) with (specular_share p) by (unfold specular_share; lra). reflexivity.
Qed.
(* the two sets of random numbers that lead to the same direction, one through the microfacet lobe and one through the diffuse lobe: the reported density
   is the sum of the two densities *)
Theorem C108_density_partial : forall wo f p u1 u2 v1 v2, orthonormal (f_t f) (f_b f) (f_n f) -> unit wo -> regular_view wo f p ->
  0 < u1 < specular_share p -> specular_share p < v1 < 1 -> direction wo f p u1 u2 = direction wo f p v1 v2 -> 0 < s_pdf (sample CookTorrance wo f p u1 u2) ->
  exists J K, spread (direction wo f p) u1 u2 J /\ spread (direction wo f p) v1 v2 K /\ 0 < J /\ 0 < K /\
    pdf CookTorrance wo (direction wo f p u1 u2) (f_n f) p = / J + / K.
Proof.
  intros wo f p u1 u2 v1 v2 O U RV HU HV E HP. assert (N : 0 < dot wo (f_n f)) by (destruct RV; lra).
  destruct (spec_spread wo f p u1 u2 O U RV HU HP) as (W1 & J & S1 & J0 & E1). destruct (diff_spread wo f p v1 v2 O N HV) as (_ & K & S2 & K0 & E2).
  exists J, K. split; auto. split; auto. split; auto. split; auto. rewrite pdf_unfold by auto. rewrite E1, E2, E. reflexivity.
Qed.
(* a metal has no diffuse lobe *)
Theorem C108_metal_partial : forall wo f p u1 u2, orthonormal (f_t f) (f_b f) (f_n f) -> unit wo -> regular_view wo f p -> 1 <= p_metallic p -> 0 < u1 < 1 ->
  0 < s_pdf (sample CookTorrance wo f p u1 u2) -> exists J, spread (direction wo f p) u1 u2 J /\ 0 < J /\ pdf CookTorrance wo (direction wo f p u1 u2) (f_n f) p = / J.
Proof.
  intros wo f p u1 u2 O U RV M HU HP. assert (N : 0 < dot wo (f_n f)) by (destruct RV; lra).
  assert (W : specular_share p = 1). { unfold specular_share, clamp, Rltb. destruct (Rlt_dec (p_metallic p) 0); [lra|]. destruct (Rlt_dec 1 (p_metallic p)); lra. }
  destruct (spec_spread wo f p u1 u2 O U RV ltac:(rewrite W; lra) HP) as (W1 & J & S1 & J0 & E1). exists J. split; auto. split; auto. rewrite pdf_unfold by auto. rewrite E1, W. ring.
Qed.
Print Assumptions C108_density_partial.
Print Assumptions C108_metal_partial.
