(* C56, C85, C89: BSDFs and direction samplers. *)
From Coq Require Import Reals Lra Lia Psatz.
From Verif Require Import Common Vec3 SpectralProofs2 LightModel LightProofs BsdfModel BsdfSpec.
From Coquelicot Require Import Coquelicot.
Open Scope R_scope.

(** C56 *)
Lemma inv_PI_pos : 0 < / PI. Proof. apply Rinv_0_lt_compat, PI_RGT_0. Qed.
Lemma clamp_bounds x lo hi : lo <= hi -> lo <= clamp x lo hi <= hi.
Proof. intros H. unfold clamp. destruct (Rltb x lo) eqn:E; rb; [lra|]. destruct (Rltb hi x) eqn:E2; rb; lra. Qed.
Lemma vadd_comm a b : vadd a b = vadd b a.
Proof. apply v3_eq; cbn; ring. Qed.
Lemma ctw_dir d f : orthonormal (f_t f) (f_b f) (f_n f) ->
  let w := local_to_world d f in dot w w = dot d d /\ dot w (f_n f) = vz d.
Proof.
  intros (H1 & H2 & H3 & H4 & H5 & H6). cbv zeta. unfold local_to_world. destruct (frame_dir (f_t f) (f_b f) (f_n f) (vx d) (vy d) (vz d) H1 H2 H3 H4 H5 H6) as (A & B & _). split; [exact A|exact B].
Qed.
Lemma cosine_facts u1 u2 : 0 <= u1 <= 1 -> let s := cosine_hemisphere u1 u2 in dot (hs_dir s) (hs_dir s) = 1 /\ vz (hs_dir s) = sqrt (1 - u1) /\ hs_pdf s = vz (hs_dir s) * / PI.
Proof.
  intros Hu. cbn. rewrite Rmax_right by lra. split; [|split; reflexivity]. unfold dot; cbn. pose proof (sin2_cos2 (2 * PI * u2)) as SC. unfold Rsqr in SC.
  pose proof (sqrt_sqrt u1 ltac:(lra)) as Q1. pose proof (sqrt_sqrt (1 - u1) ltac:(lra)) as Q2.
  transitivity (sqrt u1 * sqrt u1 * (sin (2 * PI * u2) * sin (2 * PI * u2) + cos (2 * PI * u2) * cos (2 * PI * u2)) + sqrt (1 - u1) * sqrt (1 - u1)); [ring|]. rewrite SC, Q1, Q2. ring.
Qed.
Lemma reflect_len i n : dot n n = 1 \/ n = vzero -> dot (reflect i n) (reflect i n) = dot i i.
Proof.
  intros H. unfold reflect. transitivity (dot i i + 4 * dot n i * dot n i * (dot n n - 1)).
  - unfold dot, vsub, vscale; cbn. ring.
  - destruct H as [->| ->]; [ring|]. unfold dot; cbn. ring.
Qed.
Lemma normalize_cases v : dot (normalize v) (normalize v) = 1 \/ normalize v = vzero.
Proof.
  destruct (Rlt_dec 0 (dot v v)) as [H|H]; [left; apply normalize_unit; auto|right].
  assert (SQ: forall x y z, x * x + y * y + z * z <= 0 -> x = 0 /\ y = 0 /\ z = 0) by (clear; intros; nra).
  destruct v as [x y z]. unfold dot in H; cbn in H. destruct (SQ x y z ltac:(lra)) as (-> & -> & ->). unfold normalize. apply v3_eq; cbn; ring.
Qed.
Lemma wtl_len w f : orthonormal (f_t f) (f_b f) (f_n f) -> dot (world_to_local w f) (world_to_local w f) = dot w w.
Proof.
  intros (H1 & H2 & H3 & H4 & H5 & H6). destruct f as [t b n]; cbn [f_t f_b f_n] in *. unfold world_to_local; cbn [f_t f_b f_n]. unfold dot at 1; cbn.
  unfold unit in *.
  (* Parseval: n is +- cross t b *)
  assert (PN: dot w n * dot w n = dot w (cross t b) * dot w (cross t b)).
  { assert (CL: dot (cross t b) (cross t b) = 1) by (rewrite cross_len, H1, H2, H4; ring).
    assert (E: dot n (cross t b) * dot n (cross t b) = 1).
    { transitivity (dot n n * dot (cross t b) (cross t b) - dot (cross n (cross t b)) (cross n (cross t b))); [rewrite (cross_len n (cross t b)); ring|].
      assert (Z: cross n (cross t b) = vzero). { transitivity (vsub (vscale (dot n b) t) (vscale (dot n t) b)); [apply v3_eq; unfold dot; cbn; ring|]. rewrite (dot_comm n b), (dot_comm n t), H5, H6. apply v3_eq; cbn; ring. }
      rewrite Z, H3, CL. unfold dot; cbn. ring. }
    assert (Q: dot n (cross t b) = 1 \/ dot n (cross t b) = -1) by (assert ((dot n (cross t b) - 1) * (dot n (cross t b) + 1) = 0) by lra; apply Rmult_integral in H; destruct H; [left|right]; lra).
    assert (SQ: forall x y z, x * x + y * y + z * z = 0 -> x = 0 /\ y = 0 /\ z = 0) by (clear; intros; nra).
    destruct Q as [Q|Q].
    - assert (D: dot (vsub n (cross t b)) (vsub n (cross t b)) = 0). { transitivity (dot n n - 2 * dot n (cross t b) + dot (cross t b) (cross t b)); [unfold dot, vsub; cbn; ring|]. rewrite H3, CL, Q. ring. }
      apply SQ in D. destruct D as (D1 & D2 & D3). cbn [vx vy vz vsub] in *. assert (EN: n = cross t b) by (apply v3_eq; cbn in *; lra). rewrite <- EN. reflexivity.
    - assert (D: dot (vadd n (cross t b)) (vadd n (cross t b)) = 0). { transitivity (dot n n + 2 * dot n (cross t b) + dot (cross t b) (cross t b)); [unfold dot, vadd; cbn; ring|]. rewrite H3, CL, Q. ring. }
      apply SQ in D. destruct D as (D1 & D2 & D3). cbn [vx vy vz vadd] in *. assert (EN: n = vscale (-1) (cross t b)) by (apply v3_eq; cbn in *; lra). rewrite EN, !dot_scale. ring. }
  transitivity (dot w t * dot w t + dot w b * dot w b + dot w (cross t b) * dot w (cross t b)); [rewrite <- PN; reflexivity|].
  (* Lagrange: w.w * Gram(t,b) = ... *)
  assert (ID: dot w w * (dot t t * dot b b - dot t b * dot t b) = dot w (cross t b) * dot w (cross t b) + (dot w t * dot w t * dot b b + dot w b * dot w b * dot t t - 2 * dot w t * dot w b * dot t b)) by (unfold dot, cross; cbn; ring).
  rewrite H1, H2, H4 in ID. lra.
Qed.

Definition non_delta (k : bsdf) : Prop := k <> NullBSDF.
(* a sample either reports that it carries nothing, or a unit direction above the surface with the density that pdf() reports and the weight
   value * cosine / density for the value that eval() reports *)
Theorem C56_sample : forall k wo f p u1 u2, non_delta k -> orthonormal (f_t f) (f_b f) (f_n f) -> unit wo -> 0 <= u1 < 1 ->
  let s := sample k wo f p u1 u2 in
  s_delta s = false /\
  ((s_pdf s = 0 /\ s_value s = 0) \/
   (0 < s_pdf s /\ unit (s_wi s) /\ above (f_n f) (s_wi s) /\ s_pdf s = pdf k wo (s_wi s) (f_n f) p /\
    s_value s = eval k wo (s_wi s) (f_n f) p * dot (s_wi s) (f_n f) / s_pdf s)).
Proof.
  intros k wo f p u1 u2 HK HF HW Hu s. subst s. pose proof PI_RGT_0 as PP. pose proof inv_PI_pos as IP.
  destruct (cosine_facts u1 u2 ltac:(lra)) as (C1 & C2 & C3). cbv zeta in *. destruct (ctw_dir (hs_dir (cosine_hemisphere u1 u2)) f HF) as (W1 & W2). cbv zeta in *.
  assert (CP: 0 < sqrt (1 - u1)) by (apply sqrt_lt_R0; lra). rewrite C1 in W1. rewrite C2 in W2.
  assert (HPDF: hs_pdf (cosine_hemisphere u1 u2) = sqrt (1 - u1) * / PI) by (rewrite C3, C2; reflexivity).
  assert (HPP: 0 < sqrt (1 - u1) * / PI) by nra.
  destruct k; try (exfalso; apply HK; reflexivity).
  - unfold sample. cbv zeta. rewrite W2. rewrite (proj2 (Rleb_false _ _)) by lra. cbn [s_delta s_pdf s_value s_wi]. split; [reflexivity|right].
    unfold pdf, eval, unit, above. cbv zeta. rewrite W2, HPDF. rewrite (proj2 (Rleb_false _ _)) by lra. repeat split; auto. field. split; lra.
  - unfold sample. cbv zeta. rewrite W2. rewrite (proj2 (Rleb_false _ _)) by lra. cbn [orb]. destruct (Rleb (dot wo (f_n f)) 0) eqn:EO; rb; cbn [s_delta s_pdf s_value s_wi]; (split; [reflexivity|]); [left; auto|right].
    unfold pdf, eval, unit, above. cbv zeta. rewrite W2, HPDF. rewrite (proj2 (Rleb_false _ _)), (proj2 (Rleb_false (dot wo (f_n f)) _)) by lra. cbn [orb]. repeat split; auto. field. repeat split; lra.
  - unfold sample. cbv zeta. rewrite W2. rewrite (proj2 (Rleb_false _ _)) by lra. cbn [orb]. destruct (Rleb (dot wo (f_n f)) 0) eqn:EO; rb; cbn [s_delta s_pdf s_value s_wi]; (split; [reflexivity|]); [left; auto|right].
    rewrite W2, HPDF. unfold pdf, unit, above. cbv zeta. rewrite W2. rewrite (proj2 (Rleb_false _ _)), (proj2 (Rleb_false (dot wo (f_n f)) _)) by lra. cbn [orb]. repeat split; auto. set (e := eval _ _ _ _ _). clearbody e. field. repeat split; lra.
  - unfold sample. cbv zeta. rewrite W2. rewrite (proj2 (Rleb_false _ _)) by lra. cbn [orb]. destruct (Rleb (dot wo (f_n f)) 0) eqn:EO; rb; cbn [s_delta s_pdf s_value s_wi]; (split; [reflexivity|]); [left; auto|right].
    rewrite W2, HPDF. unfold pdf, unit, above. cbv zeta. rewrite W2. rewrite (proj2 (Rleb_false _ _)), (proj2 (Rleb_false (dot wo (f_n f)) _)) by lra. cbn [orb]. repeat split; auto. set (e := eval _ _ _ _ _). clearbody e. field. repeat split; lra.
  - unfold sample. cbv zeta. rewrite W2. rewrite (proj2 (Rleb_false _ _)) by lra. cbn [orb]. destruct (Rleb (dot wo (f_n f)) 0) eqn:EO; rb; cbn [s_delta s_pdf s_value s_wi]; (split; [reflexivity|]); [left; auto|right].
    rewrite W2, HPDF. unfold pdf, unit, above. cbv zeta. rewrite W2. rewrite (proj2 (Rleb_false _ _)), (proj2 (Rleb_false (dot wo (f_n f)) _)) by lra. cbn [orb]. repeat split; auto. set (e := eval _ _ _ _ _). clearbody e. field. repeat split; lra.
  - change (sample CookTorrance wo f p u1 u2) with (sample_ct wo f p u1 u2). unfold sample_ct. cbv zeta.
    destruct (Rleb (dot (f_n f) wo) 0) eqn:EO; [cbn; split; [|left]; auto|].
    set (sw := 5 / 10 * (1 + clamp (p_metallic p) 0 1)).
    assert (FIN: forall wi, dot wi wi = 1 -> let s := (if Rleb (dot (f_n f) wi) 0 then BS wi 0 0 false else
      if Rleb (pdf_ct wo wi (f_n f) p) 0 then BS wi 0 0 false else BS wi (eval_ct wo wi (f_n f) p * (dot (f_n f) wi / pdf_ct wo wi (f_n f) p)) (pdf_ct wo wi (f_n f) p) false) in
      s_delta s = false /\ ((s_pdf s = 0 /\ s_value s = 0) \/ (0 < s_pdf s /\ unit (s_wi s) /\ above (f_n f) (s_wi s) /\ s_pdf s = pdf CookTorrance wo (s_wi s) (f_n f) p /\
      s_value s = eval CookTorrance wo (s_wi s) (f_n f) p * dot (s_wi s) (f_n f) / s_pdf s))).
    { intros wi HU. destruct (Rleb (dot (f_n f) wi) 0) eqn:E1; [cbn; split; [|left]; auto|]. destruct (Rleb (pdf_ct wo wi (f_n f) p) 0) eqn:E2; [cbn; split; [|left]; auto|]. rb.
      cbn [s_delta s_pdf s_value s_wi]. split; [reflexivity|right]. unfold unit, above. rewrite (dot_comm wi (f_n f)). repeat split; auto. cbn [eval]. unfold Rdiv. ring. }
    destruct (Rltb u1 sw) eqn:EU; rb.
    + set (h := ggx_vndf_half _ _ _ _). set (wl := reflect _ h).
      destruct (Rleb (vz wl) 0) eqn:EZ; [cbn; split; [|left]; auto|]. apply FIN.
      destruct (ctw_dir wl f HF) as (L1 & _). cbv zeta in L1. rewrite L1. unfold wl. rewrite reflect_len by (apply normalize_cases).
      rewrite dot_scale_l, dot_scale, wtl_len by auto. unfold unit in HW. rewrite HW. ring.
    + apply FIN. assert (HSW: 0 < sw <= 1). { pose proof (clamp_bounds (p_metallic p) 0 1 ltac:(lra)). unfold sw. lra. }
      set (v1 := (u1 - sw) / (1 - sw)). assert (HV: 0 <= v1 <= 1). { unfold v1. assert (0 < 1 - sw) by lra. split; [apply Rmult_le_pos; [lra|]; apply Rlt_le, Rinv_0_lt_compat; lra|]. apply (Rmult_le_reg_r (1 - sw)); auto. unfold Rdiv. rewrite Rmult_assoc, Rinv_l by lra. lra. }
      destruct (cosine_facts v1 u2 HV) as (K1 & _). cbv zeta in K1. destruct (ctw_dir (hs_dir (cosine_hemisphere v1 u2)) f HF) as (L1 & _). cbv zeta in L1. rewrite L1. exact K1.
Qed.
Print Assumptions C56_sample.

(* symmetric in the two directions; for the Lambertian BSDF only if both are above the surface *)
Theorem C56_reciprocal_partial : forall k wo wi n p, unit wo -> unit wi -> (k = Lambertian -> above n wo /\ above n wi) -> eval k wo wi n p = eval k wi wo n p.
Proof.
  intros k wo wi n p Ho Hi HL. unfold eval. cbv zeta. unfold cos_alpha_of. rewrite (dot_comm wo wi). destruct k.
  - destruct (HL eq_refl) as (A & B). unfold above in *. rewrite !(proj2 (Rleb_false _ _)) by auto. reflexivity.
  - rewrite (Bool.orb_comm (Rleb (dot wi n) 0)), (Rplus_comm (dot wi n)). reflexivity.
  - rewrite (Bool.orb_comm (Rleb (dot wi n) 0)), (Rplus_comm (dot wi n)). reflexivity.
  - rewrite (Bool.orb_comm (Rleb (dot wi n) 0)), (Rmult_comm (dot wi n)), (Rmax_comm (dot wi n)). reflexivity.
  - rewrite (Bool.orb_comm (Rleb (dot wi n) 0)), (Rplus_comm (dot wi n)), (Rmult_comm (h_function (dot wi n) _)). reflexivity.
  - unfold eval_ct. cbv zeta. rewrite (Bool.orb_comm (Rleb (dot n wo) 0)). destruct (_ || _); [reflexivity|].
    rewrite (vadd_comm wo wi). assert (E: dot wo (normalize (vadd wi wo)) = dot wi (normalize (vadd wi wo))).
    { unfold normalize. rewrite !dot_scale, !dot_add. unfold unit in *. rewrite Ho, Hi, (dot_comm wo wi). ring. }
    rewrite E. unfold smith_G2. rewrite (Rmult_comm (smith_G1 (dot n wo) _)). do 3 f_equal. ring.
  - reflexivity.
Qed.
Print Assumptions C56_reciprocal_partial.
(* directions below the surface: nothing is reflected and nothing sampled; for the Lambertian BSDF only the incoming direction is checked *)
Theorem C56_below_partial : forall k wo wi n p, ~ above n wi \/ (~ above n wo /\ k <> Lambertian) -> eval k wo wi n p = 0 /\ pdf k wo wi n p = 0.
Proof.
  intros k wo wi n p H. unfold above in H. assert (HB: Rleb (dot wi n) 0 || Rleb (dot wo n) 0 = true).
  { apply Bool.orb_true_iff. destruct H as [H|(H & _)]; [left|right]; apply Rleb_true; lra. }
  assert (HB': Rleb (dot n wo) 0 || Rleb (dot n wi) 0 = true) by (rewrite Bool.orb_comm, !(dot_comm n); exact HB).
  unfold eval, pdf. cbv zeta. destruct k; try rewrite HB; auto.
  - destruct H as [H|(_ & H)]; [|congruence]. rewrite (proj2 (Rleb_true _ _)) by lra. auto.
  - unfold eval_ct, pdf_ct. cbv zeta. rewrite HB'. auto.
Qed.
Print Assumptions C56_below_partial.
(* refuted for the Lambertian BSDF: light is passed on to an observer behind the surface, but not back *)
Theorem C56_refuted_lambertian : forall wo wi n p, above n wi -> ~ above n wo -> p_albedo p <> 0 ->
  eval Lambertian wo wi n p = p_albedo p / PI /\ eval Lambertian wo wi n p <> 0 /\ eval Lambertian wi wo n p = 0.
Proof.
  intros wo wi n p Hi Ho Ha. pose proof inv_PI_pos. unfold above in *. unfold eval. cbv zeta. rewrite (proj2 (Rleb_false _ _)) by lra. rewrite (proj2 (Rleb_true _ _)) by lra.
  repeat split; auto. apply Rmult_integral_contrapositive. split; lra.
Qed.
Print Assumptions C56_refuted_lambertian.
(* the null BSDF passes light straight through and cannot be evaluated *)
Theorem C56_null : forall wo wi f n p u1 u2, let s := sample NullBSDF wo f p u1 u2 in
  s_delta s = true /\ s_wi s = vscale (-1) wo /\ s_value s = 1 /\ eval NullBSDF wo wi n p = 0 /\ pdf NullBSDF wo wi n p = 0.
Proof. intros. cbn. auto. Qed.
Print Assumptions C56_null.
Lemma opposite_below a b n : unit a -> unit b -> dot a b = -1 -> above n a -> above n b -> False.
Proof.
  unfold unit, above. intros Ha Hb Hab H1 H2. assert (D: dot (vadd a b) (vadd a b) = 0). { transitivity (dot a a + 2 * dot a b + dot b b); [unfold dot, vadd; cbn; ring|]. rewrite Ha, Hb, Hab. ring. }
  assert (SQ: forall x y z, x * x + y * y + z * z = 0 -> x = 0 /\ y = 0 /\ z = 0) by (clear; intros; nra).
  apply SQ in D. destruct D as (D1 & D2 & D3). cbn in D1, D2, D3. unfold dot in H1, H2. assert (E: vx a = - vx b /\ vy a = - vy b /\ vz a = - vz b) by (repeat split; lra). destruct E as (E1 & E2 & E3). rewrite E1, E2, E3 in H1. lra.
Qed.
Lemma unit_dot_le a b : unit a -> unit b -> -1 <= dot a b <= 1.
Proof. intros Ha Hb. pose proof (cauchy_dot a b Ha) as C. unfold unit in Hb. rewrite Hb in C. nra. Qed.
Lemma cpow_pos x y : 0 < x -> 0 < cpow x y.
Proof. intros H. unfold cpow. destruct (Req_EM_T x 0); [lra|apply exp_pos]. Qed.
Lemma hg_nonneg g ca : -1 < g < 1 -> -1 <= ca <= 1 -> 0 <= hg g ca.
Proof. intros Hg Hc. unfold hg. cbv zeta. apply Rmult_le_pos; [nra|]. apply Rlt_le, Rinv_0_lt_compat, cpow_pos. destruct (Rle_dec 0 g); [assert (g * ca <= g * 1) by (apply Rmult_le_compat_l; lra)|assert (- g * - ca <= - g * 1) by (apply Rmult_le_compat_l; lra)]; nra. Qed.
Lemma h_function_ge_1 mu om : 0 < mu -> 0 <= om <= 1 -> 1 <= h_function mu om.
Proof.
  intros Hm Ho. unfold h_function. cbv zeta. assert (G: 0 <= sqrt (1 - om) <= 1). { split; [apply sqrt_pos|]. rewrite <- sqrt_1 at 2. apply sqrt_le_1_alt. lra. }
  set (g := sqrt _) in *. assert (0 <= g * (2 * mu)) by (apply Rmult_le_pos; lra). assert (g * (2 * mu) <= 1 * (2 * mu)) by (apply Rmult_le_compat_r; lra).
  apply (Rmult_le_reg_r (1 + g * (2 * mu))); [lra|]. unfold Rdiv. rewrite Rmult_assoc, Rinv_l by lra. lra.
Qed.
Lemma ct_terms wo wi n p : unit wo -> unit wi -> unit n -> above n wo -> above n wi -> 0 <= p_albedo p <= 1 ->
  exists d s, eval_ct wo wi n p = d + s /\ d = p_albedo p * (1 - clamp (p_metallic p) 0 1) / PI /\ 0 <= s /\ (clamp (p_metallic p) 0 1 < 1 -> 0 < s).
Proof.
  intros Ho Hi Hn Ao Ai Ha. unfold above in *. pose proof PI_RGT_0 as PP. unfold eval_ct. cbv zeta. rewrite !(dot_comm n). rewrite !(proj2 (Rleb_false _ _)) by auto. cbn [orb].
  set (co := dot wo n) in *. set (ci := dot wi n) in *. set (me := clamp (p_metallic p) 0 1). set (ro := clamp (p_roughness p) min_roughness 1).
  assert (ME: 0 <= me <= 1) by (apply clamp_bounds; lra). assert (RO: min_roughness <= ro <= 1) by (apply clamp_bounds; unfold min_roughness; lra). unfold min_roughness in RO.
  set (a2 := ro * ro * (ro * ro)). assert (A2: 0 < a2 <= 1) by (unfold a2; assert (0 < ro * ro <= 1) by nra; nra).
  set (h := normalize (vadd wo wi)). 
  assert (HH: dot h h = 1). { unfold h. apply normalize_unit. apply Rnot_le_lt. intros HX. assert (dot (vadd wo wi) (vadd wo wi) = 2 + 2 * dot wo wi). { transitivity (dot wo wo + 2 * dot wo wi + dot wi wi); [unfold dot, vadd; cbn; ring|]. unfold unit in *. rewrite Ho, Hi. ring. }
    pose proof (unit_dot_le wo wi Ho Hi). apply (opposite_below wo wi n Ho Hi); [lra| |]; unfold above; auto. }
  assert (WH: -1 <= dot wo h <= 1) by (apply unit_dot_le; auto). assert (NH: -1 <= dot h n <= 1) by (apply unit_dot_le; auto).
  set (nh := Rmax (dot h n) 0). assert (NHB: 0 <= nh <= 1) by (unfold nh; split; [apply Rmax_r|apply Rmax_lub; lra]).
  set (wh := Rmax (dot wo h) 0). assert (WHB: 0 <= wh <= 1) by (unfold wh; split; [apply Rmax_r|apply Rmax_lub; lra]).
  exists (p_albedo p * ((1 - me) * / PI)). eexists. split; [reflexivity|]. split; [unfold Rdiv; ring|].
  assert (DP: 0 < ggx_D nh a2). { unfold ggx_D. cbv zeta. assert (0 < nh * nh * (a2 - 1) + 1) by nra. apply Rdiv_lt_0_compat; [lra|]. apply Rmult_lt_0_compat; auto. apply Rmult_lt_0_compat; auto. }
  assert (G1: forall v, 0 < v <= 1 -> 0 < smith_G1 v a2).
  { intros v Hv. unfold smith_G1. cbv zeta. apply Rdiv_lt_0_compat; [lra|]. pose proof (sqrt_pos (1 + a2 * ((1 - v * v) / Rmax (v * v) (/ 10 ^ 8)))). lra. }
  assert (CO: 0 < co <= 1) by (split; [auto|apply unit_dot_le; auto]). assert (CI: 0 < ci <= 1) by (split; [auto|apply unit_dot_le; auto]).
  assert (GP: 0 < smith_G2 co ci a2) by (unfold smith_G2; apply Rmult_lt_0_compat; apply G1; auto).
  assert (QP: 0 < ggx_D nh a2 * smith_G2 co ci a2 / (4 * co * ci)). { apply Rdiv_lt_0_compat; [apply Rmult_lt_0_compat; auto|]. nra. }
  assert (F0: 0 <= p_albedo p * me + 4 / 100 * (1 - me) <= 1) by nra.
  set (f0 := p_albedo p * me + 4 / 100 * (1 - me)) in *. set (T := (1 - wh) * (1 - wh) * ((1 - wh) * (1 - wh)) * (1 - wh)).
  assert (TP: 0 <= T). { unfold T. assert (0 <= 1 - wh) by lra. assert (0 <= (1 - wh) * (1 - wh)) by nra. apply Rmult_le_pos; auto. apply Rmult_le_pos; auto. }
  assert (FE: schlick_fresnel wh f0 = f0 + (1 - f0) * T) by reflexivity. rewrite FE. split.
  - apply Rmult_le_pos; [nra|lra].
  - intros HM. apply Rmult_lt_0_compat; [|lra]. assert (0 < f0) by (unfold f0; nra). nra.
Qed.
(* no negative values *)
Theorem C56_nonnegative : forall k wo wi n p, unit wo -> unit wi -> unit n -> 0 <= p_albedo p <= 1 ->
  (forall h B0 b c, k = Hapke h B0 b c -> 0 <= B0 /\ -1 < b < 1 /\ 0 <= c <= 1) -> 0 <= eval k wo wi n p.
Proof.
  intros k wo wi n p Ho Hi Hn Ha Hk. pose proof PI_RGT_0 as PP. pose proof inv_PI_pos as IP.
  destruct (Rle_dec (dot wi n) 0) as [Bi|Bi]; [assert (NA: ~ above n wi) by (unfold above; lra); rewrite (proj1 (C56_below_partial k wo wi n p (or_introl NA))); lra|].
  destruct k.
  - unfold eval. cbv zeta. rewrite (proj2 (Rleb_false _ _)) by lra. nra.
  - unfold eval. cbv zeta. rewrite (proj2 (Rleb_false _ _)) by lra. cbn [orb]. destruct (Rleb (dot wo n) 0) eqn:E; rb; [lra|]. apply Rmult_le_pos; [lra|]. apply Rlt_le, Rinv_0_lt_compat. nra.
  - unfold eval. cbv zeta. rewrite (proj2 (Rleb_false _ _)) by lra. cbn [orb]. destruct (Rleb (dot wo n) 0) eqn:E; rb; [lra|]. set (al := acos _). assert (0 <= al) by apply acos_bound.
    assert (BE: 0 < exp (- al * (3 * / PI)) <= 1). { split; [apply exp_pos|]. rewrite <- exp_0. destruct (Req_dec al 0) as [->|]; [apply Req_le; f_equal; ring|]. apply Rlt_le, exp_increasing. nra. }
    set (be := exp _) in *. assert (0 < 1 / (4 * PI * (dot wi n + dot wo n))) by (apply Rdiv_lt_0_compat; nra). apply Rmult_le_pos; [lra|]. nra.
  - unfold eval. cbv zeta. rewrite (proj2 (Rleb_false _ _)) by lra. cbn [orb]. destruct (Rleb (dot wo n) 0) eqn:E; rb; [lra|].
    set (s2 := p_roughness p * (PI / 2) * (p_roughness p * (PI / 2))). assert (S2: 0 <= s2) by (unfold s2; nra).
    assert (R1: forall k, 0 < k -> 0 <= s2 / (s2 + k) <= 1). { intros k Hk0. split; [apply Rmult_le_pos; auto; apply Rlt_le, Rinv_0_lt_compat; lra|]. apply (Rmult_le_reg_r (s2 + k)); [lra|]. unfold Rdiv. rewrite Rmult_assoc, Rinv_l by lra. lra. }
    pose proof (R1 (33 / 100) ltac:(lra)). pose proof (R1 (9 / 100) ltac:(lra)).
    set (t := if _ && _ then _ else 0). assert (T: 0 <= t).
    { unfold t. destruct (Rltb 0 _ && _) eqn:ET; [|lra]. apply andb_prop in ET. destruct ET as (E1 & E2). rb. apply Rmult_le_pos; [lra|]. apply Rlt_le, Rinv_0_lt_compat. eapply Rlt_trans; [|exact E2]. apply Rinv_0_lt_compat. lra. }
    apply Rmult_le_pos; [nra|]. assert (0 <= 45 / 100 * (s2 / (s2 + 9 / 100)) * t) by (apply Rmult_le_pos; lra). lra.
  - destruct (Hk _ _ _ _ eq_refl) as (HB0 & Hb & Hc). unfold eval. cbv zeta. rewrite (proj2 (Rleb_false _ _)) by lra. cbn [orb]. destruct (Rleb (dot wo n) 0) eqn:E; rb; [lra|].
    pose proof (unit_dot_le wi wo Hi Ho) as DB. assert (CA: cos_alpha_of wo wi = dot wi wo). { unfold cos_alpha_of, clamp. rewrite !(proj2 (Rltb_false _ _)) by lra. reflexivity. }
    rewrite CA. set (ca := dot wi wo) in *.
    assert (CN: ca <> -1). { intros X. apply (opposite_below wi wo n Hi Ho X); unfold above; lra. }
    assert (P0: 0 <= phase_function_dhg b c ca). { unfold phase_function_dhg. pose proof (hg_nonneg (- b) ca ltac:(lra) ltac:(lra)). pose proof (hg_nonneg b ca ltac:(lra) ltac:(lra)). nra. }
    assert (TN: 0 <= tan (acos ca * (5 / 10))).
    { pose proof (acos_bound ca) as AB. assert (acos ca <> PI). { intros X. apply CN. rewrite <- (cos_acos ca) by lra. rewrite X. apply cos_PI. }
      destruct (Req_dec (acos ca) 0) as [->|]; [rewrite Rmult_0_l, tan_0; lra|]. apply Rlt_le, tan_gt_0; lra. }
    assert (OB: 0 <= opposition_effect h B0 (tan (acos ca * (5 / 10)))). { unfold opposition_effect. destruct (Rleb h 0) eqn:EH; rb; [lra|]. apply Rmult_le_pos; auto. apply Rlt_le, Rinv_0_lt_compat. assert (0 <= tan (acos ca * (5 / 10)) / h) by (apply Rmult_le_pos; auto; apply Rlt_le, Rinv_0_lt_compat; auto). lra. }
    pose proof (h_function_ge_1 (dot wi n) (p_albedo p) ltac:(lra) Ha). pose proof (h_function_ge_1 (dot wo n) (p_albedo p) E Ha).
    apply Rmult_le_pos; [apply Rmult_le_pos; [lra|]; apply Rlt_le, Rinv_0_lt_compat; nra|]. assert (1 <= h_function (dot wi n) (p_albedo p) * h_function (dot wo n) (p_albedo p)) by nra. nra.
  - destruct (Rle_dec (dot wo n) 0) as [Bo|Bo]; [assert (NA: ~ above n wo /\ CookTorrance <> Lambertian) by (split; [unfold above; lra|discriminate]); rewrite (proj1 (C56_below_partial CookTorrance wo wi n p (or_intror NA))); lra|].
    destruct (ct_terms wo wi n p Ho Hi Hn ltac:(unfold above; lra) ltac:(unfold above; lra) Ha) as (d & s & E & Ed & Hs & _). cbn [eval]. rewrite E, Ed. pose proof (clamp_bounds (p_metallic p) 0 1 ltac:(lra)).
    assert (0 <= p_albedo p * (1 - clamp (p_metallic p) 0 1) / PI) by (apply Rmult_le_pos; nra). lra.
  - cbn. lra.
Qed.
Print Assumptions C56_nonnegative.
Example C56_case : orthonormal (V3 1 0 0) (V3 0 1 0) (V3 0 0 1) /\ unit (V3 0 (6 / 10) (8 / 10)) /\
  (let s := sample OrenNayar (V3 0 (6 / 10) (8 / 10)) (Fr (V3 1 0 0) (V3 0 1 0) (V3 0 0 1)) (Pa (1 / 2) (1 / 3) 0) 0 0 in 0 < s_pdf s).
Proof.
  split; [unfold orthonormal, unit, dot; cbn; repeat split; ring|]. split; [unfold unit, dot; cbn; field|].
  unfold sample. cbv zeta. cbn [f_n]. unfold local_to_world, cosine_hemisphere, dot; cbn. rewrite Rmax_right by lra. rewrite Rminus_0_r, sqrt_1, sqrt_0.
  rewrite !(proj2 (Rleb_false _ _)) by lra. cbn. pose proof inv_PI_pos. lra.
Qed.

(** C89 *)
Theorem C89_lambertian : forall wo n p, exists g, (forall wi, above n wi -> eval Lambertian wo wi n p = g (dot wi n)) /\ reflected_share g (p_albedo p).
Proof.
  intros wo n p. pose proof PI_RGT_0 as PP. exists (fun _ => p_albedo p * / PI). split.
  - intros wi H. unfold above in H. unfold eval. cbv zeta. rewrite (proj2 (Rleb_false _ _)) by auto. reflexivity.
  - unfold reflected_share. pose (F := fun z : R => p_albedo p * (z * z)).
    assert (HI: is_RInt (fun z => 2 * PI * (p_albedo p * / PI * z)) 0 1 (minus (F 1) (F 0))).
    { apply (is_RInt_derive F); intros x _; [unfold F; auto_derive; [auto|]; field; lra|]. apply (ex_derive_continuous (fun z : R => 2 * PI * (p_albedo p * / PI * z))). auto_derive; auto. }
    assert (EM: minus (F 1) (F 0) = p_albedo p) by (unfold minus, plus, opp, F; cbn; ring). rewrite EM in HI. exact HI.
Qed.
Print Assumptions C89_lambertian.
Theorem C89_lommel_seeliger : forall wo n p, above n wo -> 0 <= p_albedo p ->
  exists g x, (forall wi, above n wi -> eval LommelSeeliger wo wi n p = g (dot wi n)) /\ reflected_share g x /\ x <= p_albedo p / 2.
Proof.
  intros wo n p Ho Ha. unfold above in Ho. pose proof PI_RGT_0 as PP. set (c := dot wo n) in *. pose (F := fun z : R => p_albedo p / 2 * (z - c * ln (z + c))).
  exists (fun z => p_albedo p / (4 * PI * (z + c))), (F 1 - F 0). split; [|split].
  - intros wi H. unfold above in H. unfold eval. cbv zeta. fold c. rewrite !(proj2 (Rleb_false _ _)) by auto. reflexivity.
  - unfold reflected_share. change (F 1 - F 0) with (minus (F 1) (F 0)). apply (is_RInt_derive F); intros x Hx; rewrite Rmin_left, Rmax_right in Hx by lra.
    + unfold F. auto_derive; [lra|]. field. split; lra.
    + apply (ex_derive_continuous (fun z : R => 2 * PI * (p_albedo p / (4 * PI * (z + c)) * z))). auto_derive. assert (0 < 4 * PI * (x + c)) by (apply Rmult_lt_0_compat; lra). repeat split; lra.
  - unfold F. assert (ln (0 + c) <= ln (1 + c)) by (apply Rlt_le, ln_increasing; lra).
    assert (0 <= p_albedo p * (c * (ln (1 + c) - ln (0 + c)))) by (apply Rmult_le_pos; [auto|]; apply Rmult_le_pos; lra). lra.
Qed.
Print Assumptions C89_lommel_seeliger.
(* refuted for Cook-Torrance: a white non-metal is brighter than the perfect white diffuser, which sends back all light, in every pair of directions *)
Theorem C89_refuted_cook_torrance : forall wo wi n p, unit wo -> unit wi -> unit n -> above n wo -> above n wi -> p_albedo p = 1 -> p_metallic p = 0 ->
  eval Lambertian wo wi n p = / PI /\ eval Lambertian wo wi n p < eval CookTorrance wo wi n p.
Proof.
  intros wo wi n p Ho Hi Hn Ao Ai Ha Hm. pose proof PI_RGT_0 as PP.
  assert (EL: eval Lambertian wo wi n p = / PI). { unfold eval. cbv zeta. unfold above in Ai. rewrite (proj2 (Rleb_false _ _)) by auto. rewrite Ha. ring. }
  rewrite EL. split; [reflexivity|]. destruct (ct_terms wo wi n p Ho Hi Hn Ao Ai ltac:(lra)) as (d & s & E & Ed & _ & Hs). cbn [eval]. rewrite E, Ed, Ha.
  assert (EC: clamp (p_metallic p) 0 1 = 0). { rewrite Hm. unfold clamp. rewrite !(proj2 (Rltb_false _ _)) by lra. reflexivity. }
  rewrite EC in *. assert (0 < s) by (apply Hs; lra). replace (1 * (1 - 0) / PI) with (/ PI) by (field; lra). lra.
Qed.
Print Assumptions C89_refuted_cook_torrance.

(** C85 *)
(* every sampler returns a unit vector at azimuth 2 pi u2 about the axis *)
Definition azimuthal (d : vec3) (u2 z : R) : Prop := unit d /\ vz d = z /\ vx d = sqrt (1 - z * z) * cos (2 * PI * u2) /\ vy d = sqrt (1 - z * z) * sin (2 * PI * u2).
Lemma azimuthal_intro z u2 r : -1 <= z <= 1 -> r = sqrt (1 - z * z) -> azimuthal (V3 (r * cos (2 * PI * u2)) (r * sin (2 * PI * u2)) z) u2 z.
Proof.
  intros Hz ->. unfold azimuthal. cbn. split; [|auto]. unfold unit, dot; cbn. pose proof (sin2_cos2 (2 * PI * u2)) as SC. unfold Rsqr in SC. pose proof (sqrt_sqrt (1 - z * z) ltac:(nra)) as Q.
  set (s := sqrt _) in *. transitivity (s * s * (sin (2 * PI * u2) * sin (2 * PI * u2) + cos (2 * PI * u2) * cos (2 * PI * u2)) + z * z); [ring|]. rewrite SC, Q. ring.
Qed.
Lemma rint_antideriv (F g : R -> R) a b m : a <= b -> (forall x, a <= x <= b -> is_derive F x (g x)) -> (forall x, a <= x <= b -> continuous g x) -> F b - F a = m -> is_RInt g a b m.
Proof. intros H HD HC <-. change (F b - F a) with (minus (F b) (F a)). apply (is_RInt_derive F); intros x Hx; rewrite Rmin_left, Rmax_right in Hx by auto; auto. Qed.
Lemma cpow_bounds u e : 0 <= u < 1 -> 0 < e -> 0 <= cpow u e <= 1.
Proof.
  intros Hu He. unfold cpow. destruct (Req_EM_T u 0); [lra|]. split; [apply Rlt_le, exp_pos|]. rewrite <- exp_0. unfold Rpower. apply Rlt_le, exp_increasing.
  assert (ln u < 0) by (rewrite <- ln_1; apply ln_increasing; lra). nra.
Qed.
(* z0 <= u^e  iff  z0^(1/e) <= u, in the form used below *)
Lemma cpow_ge z0 u k : 0 < z0 -> 0 <= u -> 0 < k -> (z0 <= cpow u (1 / k) <-> Rpower z0 k <= u).
Proof.
  intros Hz Hu Hk. unfold cpow. destruct (Req_EM_T u 0) as [->|N].
  - assert (0 < Rpower z0 k) by apply exp_pos. split; intros; lra.
  - assert (HU: 0 < u) by lra. assert (E: Rpower (Rpower u (1 / k)) k = u) by (rewrite Rpower_mult; replace (1 / k * k) with 1 by (field; lra); apply Rpower_1; auto).
    assert (HP: 0 < Rpower u (1 / k)) by apply exp_pos. split; intros H.
    + rewrite <- E. apply Rle_Rpower_l; lra.
    + apply Rnot_lt_le. intros HL. assert (Rpower (Rpower u (1 / k)) k < Rpower z0 k) by (apply Rlt_Rpower_l; lra). lra.
Qed.
Theorem C85_uniform : forall u1 u2, 0 <= u1 < 1 -> azimuthal (hs_dir (uniform_hemisphere u1 u2)) u2 u1 /\ hs_pdf (uniform_hemisphere u1 u2) = 1 / (2 * PI) /\ density (fun u => u) (fun _ => 1 / (2 * PI)).
Proof.
  intros u1 u2 Hu. pose proof PI_RGT_0 as PP. split; [apply azimuthal_intro; [lra|rewrite Rmax_right by nra; reflexivity]|]. split; [reflexivity|].
  intros z0 Hz. exists (1 - z0). split; [lra|]. split.
  - apply (rint_antideriv (fun t => t)); [lra| | |lra]; intros x Hx; [auto_derive; [auto|]; field; lra|apply continuous_const].
  - right. intros u Hu'. split; intros; lra.
Qed.
Print Assumptions C85_uniform.
Theorem C85_cosine : forall u1 u2, 0 <= u1 < 1 -> azimuthal (hs_dir (cosine_hemisphere u1 u2)) u2 (sqrt (1 - u1)) /\ hs_pdf (cosine_hemisphere u1 u2) = sqrt (1 - u1) / PI /\
  density (fun u => sqrt (1 - u)) (fun t => t / PI).
Proof.
  intros u1 u2 Hu. pose proof PI_RGT_0 as PP. split; [|split; [cbn; rewrite Rmax_right by lra; reflexivity|]].
  - unfold cosine_hemisphere. cbv zeta. cbn [hs_dir]. rewrite Rmax_right by lra. apply azimuthal_intro.
    + split; [pose proof (sqrt_pos (1 - u1)); lra|]. rewrite <- sqrt_1 at 2. apply sqrt_le_1_alt. lra.
    + rewrite sqrt_sqrt by lra. f_equal. ring.
  - intros z0 Hz. exists (1 - z0 * z0). split; [nra|]. split.
    + apply (rint_antideriv (fun t => t * t)); [lra| | |ring]; intros x Hx; [auto_derive; [auto|]; field; lra|]. apply (ex_derive_continuous (fun t : R => 2 * PI * (t / PI))). auto_derive; auto.
    + left. intros u Hu'. pose proof (sqrt_sqrt (1 - u) ltac:(lra)) as Q. pose proof (sqrt_pos (1 - u)). set (s := sqrt _) in *. split; intros; nra.
Qed.
Print Assumptions C85_cosine.
Definition power_density (n t : R) : R := (n + 1) / (2 * PI) * Rpower t n.
Theorem C85_power_cosine : forall n u1 u2, 0 <= n -> 0 < u1 < 1 -> exists z, azimuthal (hs_dir (power_cosine_hemisphere u1 u2 n)) u2 z /\ z = Rpower u1 (/ (n + 1)) /\
  hs_pdf (power_cosine_hemisphere u1 u2 n) = power_density n z /\ density (fun u => cpow u (1 / (n + 1))) (power_density n).
Proof.
  intros n u1 u2 Hn Hu. pose proof PI_RGT_0 as PP. set (z := cpow u1 (1 / (n + 1))). exists z.
  assert (ZE: z = Rpower u1 (/ (n + 1))) by (unfold z, cpow; destruct (Req_EM_T u1 0); [lra|]; f_equal; field; lra).
  assert (ZP: 0 < z) by (rewrite ZE; apply exp_pos).
  split; [|split; [auto|split]].
  - assert (CB: 0 <= z <= 1) by (apply (cpow_bounds u1 (1 / (n + 1))); [lra|apply Rdiv_lt_0_compat; lra]). unfold power_cosine_hemisphere. cbv zeta. cbn [hs_dir]. fold z.
    apply azimuthal_intro; [lra|]. rewrite Rmax_right by nra. reflexivity.
  - unfold power_cosine_hemisphere, power_density. cbv zeta. cbn [hs_pdf]. fold z. clearbody z. destruct (Req_EM_T n 0) as [EN|N]; [subst n; rewrite Rpower_O by auto; reflexivity|].
    unfold cpow. destruct (Req_EM_T z 0); [lra|reflexivity].
  - intros z0 Hz. exists (1 - Rpower z0 (n + 1)). assert (PB: 0 < Rpower z0 (n + 1) <= 1).
    { split; [apply exp_pos|]. destruct (Req_dec z0 1) as [->|]; [unfold Rpower; rewrite ln_1, Rmult_0_r, exp_0; lra|]. apply Rle_trans with (exp 0); [|rewrite exp_0; lra]. unfold Rpower. apply Rlt_le, exp_increasing. assert (ln z0 < 0) by (rewrite <- ln_1; apply ln_increasing; lra). assert (0 < (n + 1) * - ln z0) by (apply Rmult_lt_0_compat; lra). lra. }
    split; [lra|]. split.
    + assert (DR: forall x e, 0 < x -> is_derive (fun t => Rpower t e) x (e * Rpower x (e - 1))) by (intros x e Hx; apply is_derive_Reals, derivable_pt_lim_power; auto).
      apply (rint_antideriv (fun t => Rpower t (n + 1))); [lra| | |unfold Rpower at 1; rewrite ln_1, Rmult_0_r, exp_0; reflexivity]; intros x Hx.
      * pose proof (DR x (n + 1) ltac:(lra)) as D. replace (n + 1 - 1) with n in D by ring. replace (2 * PI * power_density n x) with ((n + 1) * Rpower x n) by (unfold power_density; field; lra). exact D.
      * apply (ex_derive_continuous (fun t : R => 2 * PI * power_density n t)). unfold power_density. apply (ex_derive_mult (fun _ => 2 * PI)); [apply ex_derive_const|]. apply (ex_derive_mult (fun _ => (n + 1) / (2 * PI))); [apply ex_derive_const|]. eexists. apply DR. lra.
    + right. intros u Hu'. rewrite cpow_ge by lra. split; intros; lra.
Qed.
Print Assumptions C85_power_cosine.
Definition ggx_density (roughness t : R) : R := let a2 := roughness ^ 4 in a2 * t / (PI * (t * t * (a2 - 1) + 1) ^ 2).
Theorem C85_ggx : forall roughness u1 u2, roughness <> 0 -> 0 <= u1 < 1 -> exists z, azimuthal (hs_dir (ggx_sample_half_vector u1 u2 roughness)) u2 z /\
  z = sqrt ((1 - u1) / (1 + (roughness ^ 4 - 1) * u1)) /\ hs_pdf (ggx_sample_half_vector u1 u2 roughness) = Rmax (ggx_density roughness z) (/ 10 ^ 8) /\
  density (fun u => sqrt ((1 - u) / (1 + (roughness ^ 4 - 1) * u))) (ggx_density roughness).
Proof.
  intros rough u1 u2 Hr Hu. pose proof PI_RGT_0 as PP. unfold ggx_sample_half_vector, ggx_density. cbv zeta.
  replace (rough * rough * (rough * rough)) with (rough ^ 4) by ring. set (a := rough ^ 4).
  assert (HA: 0 < a). { unfold a. replace (rough ^ 4) with ((rough * rough) * (rough * rough)) by ring. assert (0 < rough * rough) by nra. nra. }
  assert (DN: forall u, 0 <= u < 1 -> 0 < 1 + (a - 1) * u) by (intros; nra).
  assert (C2: forall u, 0 <= u < 1 -> 0 < (1 - u) / (1 + (a - 1) * u) <= 1).
  { intros u H. pose proof (DN u H). split; [apply Rdiv_lt_0_compat; lra|]. apply (Rmult_le_reg_r (1 + (a - 1) * u)); auto. unfold Rdiv. rewrite Rmult_assoc, Rinv_l by lra. nra. }
  pose proof (C2 u1 Hu) as CU. set (c2 := (1 - u1) / (1 + (a - 1) * u1)) in *. exists (sqrt c2). pose proof (sqrt_sqrt c2 ltac:(lra)) as Q. cbn [hs_dir hs_pdf].
  split; [|split; [reflexivity|split]].
  - apply azimuthal_intro; [split; [pose proof (sqrt_pos c2); lra|apply Rle_trans with (sqrt 1); [apply sqrt_le_1_alt; lra|rewrite sqrt_1; lra]]|]. rewrite Q, Rmax_right by lra. reflexivity.
  - f_equal. rewrite Q. assert (0 < c2 * (a - 1) + 1) by nra. field. split; lra.
  - intros z0 Hz. assert (DZ: forall t, 0 <= t <= 1 -> 0 < t * t * (a - 1) + 1) by (intros t Ht; assert (0 <= t * t <= 1) by nra; nra).
    pose proof (DZ z0 ltac:(lra)) as D0. exists (1 - a * (z0 * z0) / (z0 * z0 * (a - 1) + 1)).
    assert (ZB: 0 < a * (z0 * z0) / (z0 * z0 * (a - 1) + 1) <= 1). { assert (Z2: 0 < z0 * z0 <= 1) by nra. split; [apply Rdiv_lt_0_compat; [apply Rmult_lt_0_compat|]; lra|]. apply (Rmult_le_reg_r (z0 * z0 * (a - 1) + 1)); auto. unfold Rdiv. rewrite Rmult_assoc, Rinv_l by lra. nra. }
    split; [lra|]. split.
    + apply (rint_antideriv (fun t => a * (t * t) / (t * t * (a - 1) + 1))); [lra| | |field; split; lra]; intros x Hx; pose proof (DZ x ltac:(lra)).
      * auto_derive; [lra|]. field. split; lra.
      * apply (ex_derive_continuous (fun t : R => 2 * PI * (a * t / (PI * (t * t * (a - 1) + 1) ^ 2)))). auto_derive. intros X. assert (0 < PI * ((x * x * (a - 1) + 1) * ((x * x * (a - 1) + 1) * 1))) by (apply Rmult_lt_0_compat; [lra|]; nra). lra.
    + left. intros u Hu'. pose proof (DN u Hu') as DU. pose proof (C2 u Hu') as CU'. pose proof (sqrt_sqrt _ (Rlt_le _ _ (proj1 CU'))) as QU. pose proof (sqrt_pos ((1 - u) / (1 + (a - 1) * u))) as SP. set (s := sqrt ((1 - u) / (1 + (a - 1) * u))) in *.
      assert (E1: z0 <= s <-> z0 * z0 <= s * s) by (split; intros HZ; [apply Rmult_le_compat; lra|apply Rsqr_incr_0_var; [exact HZ|exact SP]]). rewrite E1, QU. clear E1.
      assert (E2: z0 * z0 <= (1 - u) / (1 + (a - 1) * u) <-> z0 * z0 * (1 + (a - 1) * u) <= 1 - u).
      { split; intros H.
        - apply (Rmult_le_compat_r (1 + (a - 1) * u)) in H; [|lra]. replace ((1 - u) / (1 + (a - 1) * u) * (1 + (a - 1) * u)) with (1 - u) in H by (field; lra). lra.
        - apply (Rmult_le_reg_r (1 + (a - 1) * u)); auto. replace ((1 - u) / (1 + (a - 1) * u) * (1 + (a - 1) * u)) with (1 - u) by (field; lra). lra. }
      rewrite E2. clear E2. set (d := z0 * z0 * (a - 1) + 1) in *.
      assert (E3: u <= 1 - a * (z0 * z0) / d <-> u * d <= d - a * (z0 * z0)).
      { split; intros H.
        - apply (Rmult_le_compat_r d) in H; [|lra]. replace ((1 - a * (z0 * z0) / d) * d) with (d - a * (z0 * z0)) in H by (field; lra). exact H.
        - apply (Rmult_le_reg_r d); auto. replace ((1 - a * (z0 * z0) / d) * d) with (d - a * (z0 * z0)) by (field; lra). exact H. }
      rewrite E3. unfold d. split; intros; nra.
Qed.
Print Assumptions C85_ggx.
(* refuted: sine_hemisphere reports 2 sin(theta) / pi^2, but its directions have density 3 cos^2(theta) / (2 pi): they gather at the zenith, not the horizon *)
Theorem C85_refuted_sine : forall u1 u2, 0 <= u1 < 1 -> exists z, azimuthal (hs_dir (sine_hemisphere u1 u2)) u2 z /\ z = cpow (1 - u1) (1 / 3) /\
  hs_pdf (sine_hemisphere u1 u2) = Rmax (2 * sqrt (1 - z * z) / (PI * PI)) (/ 10 ^ 8) /\
  density (fun u => cpow (1 - u) (1 / 3)) (fun t => 3 * (t * t) / (2 * PI)) /\
  ~ density (fun u => cpow (1 - u) (1 / 3)) (fun t => Rmax (2 * sqrt (1 - t * t) / (PI * PI)) (/ 10 ^ 8)).
Proof.
  intros u1 u2 Hu. pose proof PI_RGT_0 as PP. set (z := cpow (1 - u1) (1 / 3)). exists z.
  assert (ZB: 0 <= z <= 1). { unfold z. destruct (Req_dec u1 0) as [->|]; [|apply cpow_bounds; lra]. rewrite Rminus_0_r. unfold cpow. destruct (Req_EM_T 1 0); [lra|]. unfold Rpower. rewrite ln_1, Rmult_0_r, exp_0. lra. }
  assert (IFF: forall z0 u, 0 < z0 -> 0 <= u < 1 -> (z0 <= cpow (1 - u) (1 / 3) <-> u <= 1 - z0 * z0 * z0)).
  { intros z0 u Hz Hu'. rewrite cpow_ge by lra. replace 3 with (INR 3) by (cbn; lra). rewrite Rpower_pow by auto. cbn. split; intros; lra. }
  split; [|split; [reflexivity|split; [|split]]].
  - unfold sine_hemisphere, cbrt. cbv zeta. cbn [hs_dir]. fold z. apply azimuthal_intro; [lra|]. rewrite Rmax_right by nra. reflexivity.
  - unfold sine_hemisphere, cbrt. cbv zeta. cbn [hs_pdf]. fold z. rewrite (Rmax_right 0) by nra. reflexivity.
  - intros z0 Hz. exists (1 - z0 * z0 * z0). assert (0 < z0 * z0 <= 1) by nra. assert (0 < z0 * z0 * z0 <= 1) by nra. split; [lra|]. split.
    + apply (rint_antideriv (fun t => t * t * t)); [lra| | |ring]; intros x Hx; [auto_derive; [auto|]; field; lra|]. apply (ex_derive_continuous (fun t : R => 2 * PI * (3 * (t * t) / (2 * PI)))). auto_derive; auto.
    + left. intros u Hu'. apply IFF; lra.
  - intros HD. destruct (HD (1 / 2) ltac:(lra)) as (m & Hm & HI & [HL|HR]).
    + assert (M78: 7 / 8 <= m). { apply (HL (7 / 8) ltac:(lra)). apply IFF; lra. }
      assert (HPI: 3 < PI) by (pose proof PI2_3_2; unfold PI2 in *; lra).
      assert (UB: m <= 2 / 3).
      { assert (HC: is_RInt (fun _ : R => 4 / 3) (1 / 2) 1 (scal (1 - 1 / 2) (4 / 3))) by apply (is_RInt_const (V:=R_NormedModule)).
        replace (2 / 3) with (scal (1 - 1 / 2) (4 / 3)) by (unfold scal; cbn; unfold mult; cbn; field).
        assert (H12: 1 / 2 <= 1) by lra. apply (is_RInt_le _ _ _ _ _ _ H12 HI HC). intros x Hx.
        assert (SB: 0 <= sqrt (1 - x * x) <= 1) by (split; [apply sqrt_pos|apply Rle_trans with (sqrt 1); [apply sqrt_le_1_alt; nra|rewrite sqrt_1; lra]]).
        set (s := sqrt _) in *. unfold Rmax. destruct (Rle_dec _ _).
        - assert (PI <= 4) by apply PI_4. replace (/ 10 ^ 8) with (1 / 100000000) by field. lra.
        - replace (2 * PI * (2 * s / (PI * PI))) with (4 * s / PI) by (field; lra). apply (Rmult_le_reg_r PI); [lra|]. unfold Rdiv. rewrite Rmult_assoc, Rinv_l by lra. nra. }
      lra.
    + assert (X: 1 / 2 <= cpow (1 - 8 / 9) (1 / 3) <-> 1 - m <= 8 / 9) by (apply HR; lra). assert (Y: 1 / 2 <= cpow (1 - 1 / 9) (1 / 3) <-> 1 - m <= 1 / 9) by (apply HR; lra).
      rewrite IFF in X by lra. rewrite IFF in Y by lra. assert (A: 1 - m <= 1 / 9) by (apply Y; lra). assert (B: 8 / 9 <= 1 - 1 / 2 * (1 / 2) * (1 / 2)) by (apply X; lra). lra.
Qed.
Print Assumptions C85_refuted_sine.
