(* Media, free path sampling, light sampling, Russian roulette, clamping, shadow rays: C59, C87, C88, C93-C96. *)
From Verif Require Import Common Vec3 SpectralModel SpectralProofs2 MediumStackModel MediumStackSpec PathModel PathSpec PathProofs BsdfSpec BsdfProps.
From Coquelicot Require Import Coquelicot.
Open Scope R_scope.

(* C59. A constant density field accepts exactly the non-negative coefficients; the transmittance of a homogeneous medium is Beer's law: it is
   exp(-(absorption + scattering) t) in every channel, hence 1 at zero distance, within (0, 1], never increasing with distance and multiplicative. *)
Theorem C59_field_accepts : forall a s, (nonneg a /\ nonneg s -> constant_density_field a s = Ok (MP a s)) /\ (~ (nonneg a /\ nonneg s) -> constant_density_field a s = Throws).
Proof.
  assert (E: forall l, existsb (fun v => Rltb v 0) l = false <-> nonneg l).
  { intros l. split; intros H.
    - intros x I. destruct (Rltb x 0) eqn:X; [|apply Rltb_false in X; auto]. assert (existsb (fun v => Rltb v 0) l = true) by (apply existsb_exists; eauto). congruence.
    - destruct (existsb (fun v => Rltb v 0) l) eqn:X; auto. apply existsb_exists in X. destruct X as (x & I & X). apply Rltb_true in X. specialize (H x I). lra. }
  intros a s. unfold constant_density_field. split.
  - intros [A S]. rewrite (proj2 (E a) A), (proj2 (E s) S). reflexivity.
  - intros N. destruct (existsb _ a) eqn:A; auto. destruct (existsb _ s) eqn:S; auto. exfalso. apply N. split; apply E; auto.
Qed.
Print Assumptions C59_field_accepts.
Theorem C59_beer_lambert : forall n m c, medium_ok n m -> (c < n)%nat ->
  let Tr t := ch c (evaluate_transmittance m t) in
  Tr 0 = 1 /\ (forall t, 0 <= t -> Tr t = exp (- (ch c (absorption m) + ch c (scattering m)) * t)) /\ (forall t, 0 <= t -> 0 < Tr t <= 1) /\
  (forall s t, 0 <= s -> 0 <= t -> Tr (s + t) = Tr s * Tr t) /\ (forall s t, 0 <= s <= t -> Tr t <= Tr s).
Proof.
  intros n m c M C Tr. assert (E: forall t, 0 <= t -> Tr t = exp (- sigma m c * t)) by (intros; apply (ch_transmittance n); auto).
  pose proof (sigma_nonneg n m c M) as SN. assert (MO: forall s t, 0 <= s <= t -> Tr t <= Tr s).
  { intros s t H. rewrite !E by lra. assert (L: - sigma m c * t <= - sigma m c * s) by nra. destruct L as [L|L]; [apply Rlt_le, exp_increasing, L|rewrite L; lra]. }
  assert (Z: Tr 0 = 1) by (rewrite E by lra; rewrite Rmult_0_r; apply exp_0).
  split; [exact Z|]. split; [exact E|]. split; [|split; [|exact MO]].
  - intros t H. split; [rewrite E by auto; apply exp_pos|]. rewrite <- Z. apply MO. lra.
  - intros s t H1 H2. rewrite !E by lra. rewrite <- exp_plus. f_equal. ring.
Qed.
Print Assumptions C59_beer_lambert.
Example C59_ex : exists m, constant_density_field (1 :: 2 :: nil) (3 :: 0 :: nil) = Ok m /\ medium_ok 2 m.
Proof.
  assert (A: nonneg (1 :: 2 :: nil)) by (intros x [<-|[<-|[]]]; lra). assert (B: nonneg (3 :: 0 :: nil)) by (intros x [<-|[<-|[]]]; lra).
  exists (MP (1 :: 2 :: nil) (3 :: 0 :: nil)). split; [apply C59_field_accepts; auto|]. repeat split; auto.
Qed.

(* C88. Free path sampling: with avg the mean extinction, a ray whose random number is u collides before distance d iff u < 1 - exp(-avg d); *)
Theorem C88_collision_probability : forall m u d t, 0 <= u < 1 -> sample_free_path m u = Some t -> 0 <= t /\ (t < d <-> u < 1 - exp (- avg_ext (extinction m) * d)).
Proof.
  intros m u d t Hu H. split; [|apply (free_path_below m u d t); auto]. destruct (Rlt_or_le t 0) as [L|]; auto. exfalso.
  apply (free_path_below m u 0 t Hu H) in L. rewrite Rmult_0_r, exp_0 in L. lra.
Qed.
Print Assumptions C88_collision_probability.
(* the mean over u of the weight of rays that reach the surface at distance d is Beer's transmittance exp(-sigma d), in every channel; *)
Theorem C88_surface_unbiased : forall n m d thr c, medium_ok n m -> List.length thr = n -> (c < n)%nat -> / 10 ^ 6 < avg_ext (extinction m) -> 0 <= d ->
  is_RInt (fun u => match sample_free_path m u with Some t => if Rltb t d then 0 else ch c (traverse m d thr) | None => 0 end) 0 1 (ch c thr * exp (- sigma m c * d)).
Proof.
  intros n m d thr c M L C A D. set (a := avg_ext (extinction m)) in *. set (q := 1 - exp (- a * d)).
  assert (AP: 0 < a) by (assert (0 < / 10 ^ 6) by (apply Rinv_0_lt_compat, pow_lt; lra); lra).
  assert (Q: 0 <= q < 1). { unfold q. pose proof (exp_pos (- a * d)). assert (L0: - a * d <= 0) by nra. destruct L0 as [L0|L0]; [apply exp_increasing in L0; rewrite exp_0 in L0; lra|rewrite L0, exp_0; lra]. }
  assert (F: forall u, 0 <= u < 1 -> exists t, sample_free_path m u = Some t /\ (t < d <-> u < q)).
  { intros u Hu. unfold sample_free_path. fold a. cbv zeta. destruct (Rleb a (/ 10 ^ 6)) eqn:E; [rb; lra|]. eexists. split; [reflexivity|].
    apply (free_path_below m u d); [auto|]. unfold sample_free_path. fold a. cbv zeta. rewrite E. reflexivity. }
  replace (ch c thr * exp (- sigma m c * d)) with (plus ((q - 0) * 0) ((1 - q) * ch c (traverse m d thr))).
  2:{ unfold plus; cbn. rewrite (ch_traverse n) by auto. fold a. unfold q. field. apply Rgt_not_eq, exp_pos. }
  apply (is_RInt_Chasles (V := R_NormedModule)) with q.
  - apply (is_RInt_ext (V := R_NormedModule) (fun _ => 0)); [|apply (is_RInt_const (V := R_NormedModule))]. intros u Hu. rewrite Rmin_left, Rmax_right in Hu by lra.
    destruct (F u ltac:(lra)) as (t & -> & T). destruct (Rltb t d) eqn:E; auto. rb. exfalso. apply (Rlt_not_le d t); [apply T; lra|auto].
  - apply (is_RInt_ext (V := R_NormedModule) (fun _ => ch c (traverse m d thr))); [|apply (is_RInt_const (V := R_NormedModule))]. intros u Hu. rewrite Rmin_left, Rmax_right in Hu by lra.
    destruct (F u ltac:(lra)) as (t & -> & T). destruct (Rltb t d) eqn:E; auto. rb. exfalso. assert (u < q) by (apply T; auto). lra.
Qed.
Print Assumptions C88_surface_unbiased.
(* and the mean of what the rays colliding before d contribute, for any quantity f of the collision point, is the integral of
   scattering exp(-sigma t) f(t) from 0 to d: the single scattering integral. *)
Theorem C88_scattering_unbiased : forall n m d thr c (f : R -> R) I, medium_ok n m -> List.length thr = n -> (c < n)%nat -> / 10 ^ 6 < avg_ext (extinction m) -> 0 <= d ->
  (forall t, continuous f t) ->
  is_RInt (fun t => ch c (scattering m) * exp (- sigma m c * t) * f t) 0 d I ->
  is_RInt (fun u => match sample_free_path m u with Some t => ch c (collide m t thr) * f t | None => 0 end) 0 (1 - exp (- avg_ext (extinction m) * d)) (ch c thr * I).
Proof.
  intros n m d thr c f I M L C A D FC HI. set (a := avg_ext (extinction m)) in *. set (q := 1 - exp (- a * d)).
  assert (AP: 0 < a) by (assert (0 < / 10 ^ 6) by (apply Rinv_0_lt_compat, pow_lt; lra); lra).
  assert (Q: 0 <= q < 1). { unfold q. pose proof (exp_pos (- a * d)). assert (L0: - a * d <= 0) by nra. destruct L0 as [L0|L0]; [apply exp_increasing in L0; rewrite exp_0 in L0; lra|rewrite L0, exp_0; lra]. }
  set (g := fun u => - ln (1 - u) / a). set (h := fun t => ch c (scattering m) * exp (- sigma m c * t) * f t) in *.
  assert (G0: g 0 = 0) by (unfold g; rewrite Rminus_0_r, ln_1; field; lra).
  assert (Gq: g q = d) by (unfold g, q; replace (1 - (1 - exp (- a * d))) with (exp (- a * d)) by ring; rewrite ln_exp; field; lra).
  assert (HC: forall t, continuous h t).
  { intros t. unfold h. apply (continuous_mult (K := R_AbsRing)); [|auto]. apply (ex_derive_continuous (fun t : R => ch c (scattering m) * exp (- sigma m c * t))). auto_derive; auto. }
  assert (S: is_RInt (fun u => scal (/ (a * (1 - u))) (h (g u))) 0 q (RInt h (g 0) (g q))).
  { apply (is_RInt_comp h g (fun u => / (a * (1 - u))) 0 q).
    - intros; apply HC.
    - intros u Hu. rewrite Rmin_left, Rmax_right in Hu by lra. split.
      + unfold g. auto_derive; [lra|]. unfold Rminus. field. lra.
      + apply (ex_derive_continuous (fun u : R => / (a * (1 - u)))). auto_derive. apply Rgt_not_eq, Rmult_lt_0_compat; lra. }
  rewrite G0, Gq in S. rewrite (is_RInt_unique (V := R_CompleteNormedModule) h 0 d I HI) in S.
  apply (is_RInt_scal (V := R_NormedModule) _ _ _ (ch c thr)) in S. change (scal (ch c thr) I) with (ch c thr * I) in S.
  eapply (is_RInt_ext (V := R_NormedModule)); [|exact S]. intros u Hu. rewrite Rmin_left, Rmax_right in Hu by lra.
  unfold sample_free_path. fold a. cbv zeta. destruct (Rleb a (/ 10 ^ 6)) eqn:E; [rb; lra|]. fold (g u). rewrite (ch_collide n) by auto. fold a.
  assert (EX: exp (- a * g u) = 1 - u) by (unfold g; replace (- a * (- ln (1 - u) / a)) with (ln (1 - u)) by (field; lra); apply exp_ln; lra). rewrite EX.
  unfold h. set (e := exp (- sigma m c * g u)). set (fu := f (g u)). unfold scal; cbn. unfold mult; cbn. match goal with |- ?x = ?y => change (@eq R x y) end. field. split; lra.
Qed.
Print Assumptions C88_scattering_unbiased.
(* Directions after scattering are uniform on the sphere, with density 1/(4 pi), so that the throughput is unchanged. *)
Theorem C88_isotropic : forall u1 u2, 0 <= u1 < 1 -> azimuthal (fst (iso_sample u1 u2)) u2 (1 - 2 * u1) /\ snd (iso_sample u1 u2) = 1 / (4 * PI) /\ iso_evaluate / snd (iso_sample u1 u2) = 1 /\
  (forall z0, -1 <= z0 <= 1 -> is_RInt (fun _ => 2 * PI * (1 / (4 * PI))) z0 1 ((1 - z0) / 2) /\ forall u, 0 <= u < 1 -> (z0 <= 1 - 2 * u <-> u <= (1 - z0) / 2)).
Proof.
  intros u1 u2 Hu. pose proof PI_RGT_0 as PP. split; [|split; [reflexivity|split]].
  - unfold iso_sample. cbv zeta. cbn [fst]. rewrite Rmax_right by nra. apply azimuthal_intro; [lra|reflexivity].
  - cbn. unfold iso_evaluate. field. lra.
  - intros z0 Hz. split; [|intros; split; intros; lra]. replace ((1 - z0) / 2) with ((1 - z0) * (2 * PI * (1 / (4 * PI)))) by (field; lra). apply (is_RInt_const (V := R_NormedModule)).
Qed.
Print Assumptions C88_isotropic.
(* Refuted for thin media: at a mean extinction of at most 1e-6 per metre no ray ever collides, and the rays are not attenuated either, however long the way. *)
Theorem C88_thin_media_refuted : exists m d, medium_ok 1 m /\ 0 < d /\ (forall u, sample_free_path m u = None) /\ traverse m d (1 :: nil) = 1 :: nil /\ evaluate_transmittance m d = exp (-1000) :: nil /\ exp (-1000) < / 10.
Proof.
  exists (MP (0 :: nil) (/ 10 ^ 6 :: nil)), (10 ^ 9). assert (P: 0 < / 10 ^ 6) by (apply Rinv_0_lt_compat, pow_lt; lra).
  assert (X: extinction (MP (0 :: nil) (/ 10 ^ 6 :: nil)) = / 10 ^ 6 :: nil) by (unfold extinction, zip; cbn [absorption scattering combine map fst snd]; f_equal; ring).
  assert (A: avg_ext (/ 10 ^ 6 :: nil) = / 10 ^ 6) by (unfold avg_ext, sum; cbn [fold_left List.length]; rewrite INR_IZR_INZ; cbn [Z.of_nat Pos.of_succ_nat]; unfold Rdiv; rewrite Rinv_1; ring).
  assert (E: - / 10 ^ 6 * 10 ^ 9 = -1000) by (field).
  split; [|split; [|split; [|split; [|split]]]].
  - repeat split; cbn; intros x [<-|[]]; lra.
  - apply pow_lt. lra.
  - intros u. unfold sample_free_path. cbv zeta. rewrite X, A. destruct (Rleb _ _) eqn:B; auto. rb. lra.
  - unfold traverse. cbv zeta. rewrite X, A. unfold sscale, smul, zip, beer. cbn [combine map fst snd]. f_equal. field. apply Rgt_not_eq, exp_pos.
  - unfold evaluate_transmittance. rewrite X. destruct (Rleb (10 ^ 9) 0) eqn:B; [rb; assert (0 < 10 ^ 9) by (apply pow_lt; lra); lra|]. unfold beer. cbn [map]. f_equal. f_equal. exact E.
  - pose proof (exp_pos (-1000)) as Q. assert (1 + 1000 < exp 1000) by (apply exp_ineq1; lra). assert (M: exp 1000 * exp (-1000) = 1) by (rewrite <- exp_plus; replace (1000 + -1000) with 0 by ring; apply exp_0). nra.
Qed.
Print Assumptions C88_thin_media_refuted.

(* C87. Light at a surface is counted once: the light sample weighted by its density plus the BSDF sample weighted by its density is exactly
   throughput times BSDF times cosine times the light's radiance, in every channel. *)
Theorem C87_surface_light_once_partial : forall n bounce thr Li f cosine p_l p_b value c,
  List.length thr = n -> List.length Li = n -> List.length f = n -> List.length value = n -> (c < n)%nat -> 0 < p_l -> 0 < p_b ->
  (forall k, (k < n)%nat -> ch k value = ch k f * cosine / p_b) ->
  exists by_light by_bsdf,
    nee_surface thr (SLt Li p_l f cosine p_b (fill n 1)) = Some by_light /\
    hit_light (S bounce) (smul thr value) Li (recorded_pdf (BC value p_b false)) p_l = Some by_bsdf /\
    p_l * ch c by_light + p_b * ch c by_bsdf = ch c thr * ch c f * cosine * ch c Li.
Proof.
  intros n bounce thr Li f cosine p_l p_b value c L1 L2 L3 L4 C PL PB V.
  assert (HH: forall x y, 0 < x -> 0 < y -> heuristic x y = Some (x * x / (x * x + y * y))) by (intros; unfold heuristic; destruct (Req_EM_T _ 0) as [Z|]; auto; exfalso; nra).
  unfold nee_surface, hit_light, recorded_pdf. cbn [l_tr l_pdf l_bpdf l_Li l_f l_cos b_delta b_pdf Nat.eqb]. rewrite !HH by auto.
  assert (VM: Rleb (vmax (fill n 1)) 0 = false).
  { apply Rleb_false. pose proof (vmax_ge (fill n 1) 1) as G. assert (In 1 (fill n 1)) by (unfold fill; destruct n; [lia|left; auto]). specialize (G H). lra. }
  rewrite VM. eexists. eexists. split; [reflexivity|]. split; [reflexivity|].
  assert (LL: List.length (smul (smul thr (sscale (1 / p_l) Li)) f) = n) by (rewrite !smul_length; rewrite ?sscale_length, ?smul_length; rewrite ?sscale_length; lia).
  unfold smul at 1. rewrite ch_zip by (rewrite ?sscale_length, ?LL, ?fill_length; lia). rewrite ch_fill by auto.
  rewrite !ch_sscale by (rewrite ?sscale_length, ?LL; rewrite ?smul_length; rewrite ?smul_length; lia).
  unfold smul. rewrite !ch_zip by (rewrite ?zip_length, ?sscale_length; rewrite ?sscale_length; lia). rewrite ch_sscale by lia. rewrite V by auto.
  field. repeat split; try lra. nra.
Qed.
Print Assumptions C87_surface_light_once_partial.
(* Refuted behind a delta BSDF (a window, the Null BSDF): the light is not seen through it at all, although seen directly it shows its radiance. *)
Theorem C87_light_behind_delta_surface_refuted : forall medium props Le light_pdf, 0 < light_pdf ->
  let pane := Sg (HitSurface (Su None 1 0 nil (Some (BC (1 :: nil) 1 true)) 0 true)) 1 0 nil 1 1 in
  let light := Sg (HitLight (Le :: nil) light_pdf) 1 0 nil 1 1 in
  (exists p, trace medium props 3 0 (light :: nil) (path0 1) = Done p /\ sample_radiance None p = Le :: nil) /\
  (exists p, trace medium props 3 0 (pane :: light :: nil) (path0 1) = Done p /\ sample_radiance None p = 0 :: nil).
Proof.
  intros medium props Le lp H pane light. split.
  - eexists. split; [reflexivity|]. cbn. f_equal. ring.
  - cbn [trace Nat.leb]. unfold iterate at 1. cbn [path0 p_stack top empty_stack size Nat.eqb arrive g_target pane].
    unfold surface_step. cbn [s_opacity s_u_opacity]. assert (R1: Rltb 1 1 = false) by (apply Rltb_false; lra). rewrite R1. cbn [andb s_lights nee_all s_bsdf Nat.leb s_transmitted].
    cbn [toggle s_prim p_stack set_thr set_prev]. unfold iterate. cbn [set_stack set_thr set_prev p_stack path0 top empty_stack size Nat.eqb arrive g_target light].
    unfold hit_light. cbn [Nat.eqb p_prev]. unfold recorded_pdf. cbn [b_delta]. unfold heuristic. destruct (Req_EM_T _ 0) as [Z|]; [exfalso; nra|].
    eexists. split; [reflexivity|]. cbn. f_equal. match goal with |- ?x = ?y => change (@eq R x y) end. field. lra.
Qed.
Print Assumptions C87_light_behind_delta_surface_refuted.
(* Refuted in a medium: the light sample at a collision is not weighted, and the scattered ray that happens to hit the light is added to it,
   so that light is counted 1 + w times with w > 0. *)
Theorem C87_volume_light_twice_refuted : forall n bounce thr Li phase p_l p_ph c,
  List.length thr = n -> List.length Li = n -> (c < n)%nat -> 0 < p_l -> 0 < p_ph -> 0 < ch c thr -> 0 < ch c Li -> 0 < phase ->
  exists by_phase, hit_light (S bounce) (sscale (phase / p_ph) thr) Li p_ph p_l = Some by_phase /\
    ch c thr * phase * ch c Li < p_l * ch c (nee_volume thr (VL Li p_l phase (fill n 1))) + p_ph * ch c by_phase.
Proof.
  intros n bounce thr Li phase p_l p_ph c L1 L2 C PL PP T0 LI0 PH.
  unfold hit_light. cbn [Nat.eqb]. unfold heuristic. destruct (Req_EM_T _ 0) as [Z|]; [exfalso; nra|]. eexists. split; [reflexivity|].
  unfold nee_volume. cbn [v_tr v_phase v_pdf v_Li].
  assert (VM: Rleb (vmax (fill n 1)) 0 = false).
  { apply Rleb_false. pose proof (vmax_ge (fill n 1) 1) as G. assert (In 1 (fill n 1)) by (unfold fill; destruct n; [lia|left; auto]). specialize (G H). lra. }
  rewrite VM. unfold smul. rewrite ch_zip by (rewrite ?sscale_length, ?zip_length, ?fill_length; rewrite ?sscale_length; lia). rewrite ch_fill by auto.
  rewrite !ch_sscale by (rewrite ?zip_length; rewrite ?sscale_length; lia). rewrite !ch_zip by (rewrite ?sscale_length; lia). rewrite !ch_sscale by lia.
  set (x := ch c thr) in *. set (y := ch c Li) in *.
  assert (W: 0 < p_ph * p_ph / (p_ph * p_ph + p_l * p_l)) by (apply Rdiv_lt_0_compat; nra). set (w := p_ph * p_ph / (p_ph * p_ph + p_l * p_l)) in *.
  clearbody w x y.
  replace (p_l * (phase * (x * (1 / p_l * y)) * 1) + p_ph * (w * (phase / p_ph * x * y))) with (x * phase * y + w * (phase * x * y)) by (field; split; lra).
  assert (0 < w * (phase * x * y)) by (repeat apply Rmult_lt_0_compat; auto). lra.
Qed.
Print Assumptions C87_volume_light_twice_refuted.

(* C93. The transmittance of a shadow ray is, in every channel, exp(-optical depth) times the product of the transmission colours of the surfaces
   crossed (1 for a surface the ray slips through), where the optical depth sums, over the pieces between crossings, length times the coefficient of the
   innermost volume the ray is in; surfaces at or beyond the light do not matter. *)
Theorem C93_shadow_transmittance : forall medium props n (s : nat -> list (option prim) -> R) w st crossed beyond far,
  (forall m, medium_ok n (props m)) -> (0 < n)%nat -> toggles medium empty_stack w = Ok st ->
  (forall h, In h crossed -> 0 <= c_t h /\ List.length (c_trans h) = n /\ nonneg (c_trans h)) ->
  total_t crossed < far -> match beyond with nil => True | h :: _ => far - total_t crossed <= c_t h end ->
  (forall k c, (k <= List.length crossed)%nat -> (c < n)%nat -> coefficient medium props (w ++ map c_prim (firstn k crossed)) c (s c (w ++ map c_prim (firstn k crossed)))) ->
  exists out, shadow medium props st (fill n 1) far (crossed ++ beyond) = Ok out /\ List.length out = n /\
    forall c, (c < n)%nat -> ch c out = exp (- optical_depth (s c) w crossed far) * product (map (factor c) crossed).
Proof.
  intros medium props n s w st crossed beyond far P N T H F B S.
  destruct (shadow_value medium props n P N s beyond crossed w st (fill n 1) far T (fill_length _ _) (nonneg_fill n 1 ltac:(lra)) H F B S) as (out & O1 & O2 & O3).
  exists out. split; [exact O1|]. split; [exact O2|]. intros c Hc. rewrite (O3 c Hc), ch_fill by auto. ring.
Qed.
Print Assumptions C93_shadow_transmittance.
Lemma optical_depth_nonneg medium props n c s : (forall m, medium_ok n (props m)) -> forall crossed w far, (forall h, In h crossed -> 0 <= c_t h) -> total_t crossed <= far ->
  (forall k, (k <= List.length crossed)%nat -> coefficient medium props (w ++ map c_prim (firstn k crossed)) c (s (w ++ map c_prim (firstn k crossed)))) -> 0 <= optical_depth s w crossed far.
Proof.
  intros P. assert (CN: forall w x, coefficient medium props w c x -> 0 <= x).
  { intros w x (path & _ & _ & ->). destruct path; [lra|]. destruct (medium p); [|lra]. apply (sigma_nonneg n), P. }
  induction crossed as [|h r IH]; intros w far H F S; cbn [optical_depth].
  - cbn in F. specialize (S 0%nat (le_n _)). cbn in S. rewrite app_nil_r in S. apply CN in S. apply Rmult_le_pos; auto.
  - cbn [total_t fold_right] in F. fold (total_t r) in F. pose proof (S 0%nat (Nat.le_0_l _)) as S0. cbn in S0. rewrite app_nil_r in S0. apply CN in S0.
    assert (0 <= s w * c_t h) by (apply Rmult_le_pos; auto; apply H; left; auto).
    assert (0 <= optical_depth s (w ++ (c_prim h :: nil)) r (far - c_t h)). { apply IH; [intros; apply H; right; auto|lra|]. intros k Hk. rewrite <- app_assoc. cbn [app]. specialize (S (Datatypes.S k)). cbn in S. apply S. lia. }
    lra.
Qed.
(* Hence it is never negative and never above 1 when the colours are not, and 0 behind an opaque surface. *)
Theorem C93_shadow_range : forall medium props n (s : nat -> list (option prim) -> R) w st crossed beyond far out,
  (forall m, medium_ok n (props m)) -> (0 < n)%nat -> toggles medium empty_stack w = Ok st ->
  (forall h, In h crossed -> 0 <= c_t h /\ List.length (c_trans h) = n /\ nonneg (c_trans h) /\ forall x, In x (c_trans h) -> x <= 1) ->
  total_t crossed < far -> match beyond with nil => True | h :: _ => far - total_t crossed <= c_t h end ->
  (forall k c, (k <= List.length crossed)%nat -> (c < n)%nat -> coefficient medium props (w ++ map c_prim (firstn k crossed)) c (s c (w ++ map c_prim (firstn k crossed)))) ->
  shadow medium props st (fill n 1) far (crossed ++ beyond) = Ok out ->
  forall c, (c < n)%nat -> 0 <= ch c out <= 1 /\ ((exists h, In h crossed /\ 1 <= c_opacity h /\ ch c (c_trans h) = 0) -> ch c out = 0).
Proof.
  intros medium props n s w st crossed beyond far out P N T H F B S E c Hc.
  destruct (C93_shadow_transmittance medium props n s w st crossed beyond far P N T) as (out' & O1 & O2 & O3); auto.
  { intros h Hh. destruct (H h Hh) as (A1 & A2 & A3 & _). auto. }
  assert (out' = out) by congruence. subst out'. rewrite (O3 c Hc).
  assert (OD: 0 <= optical_depth (s c) w crossed far). { apply (optical_depth_nonneg medium props n c); [auto|intros h Hh; exact (proj1 (H h Hh))|lra|intros k Hk; apply (S k c Hk Hc)]. }
  assert (EX: 0 < exp (- optical_depth (s c) w crossed far) <= 1). { split; [apply exp_pos|]. rewrite <- exp_0. destruct OD as [OD|OD]; [apply Rlt_le, exp_increasing; lra|rewrite <- OD, Ropp_0; lra]. }
  assert (PR: 0 <= product (map (factor c) crossed) <= 1).
  { clear - H Hc. induction crossed as [|h r IH]; cbn; [lra|]. fold (product (map (factor c) r)). assert (IH' := IH (fun h I => H h (or_intror I))).
    destruct (H h (or_introl eq_refl)) as (_ & _ & A & B). assert (0 <= factor c h <= 1). { unfold factor. destruct (_ && _); [lra|]. split; [apply ch_nonneg, A|]. unfold ch. destruct (nth_in_or_default c (c_trans h) 0) as [I|I]; [apply B, I|rewrite I; lra]. }
    nra. }
  split; [nra|]. intros (h & I & O & Z). assert (Q: product (map (factor c) crossed) = 0).
  { clear - I O Z. induction crossed as [|h' r IH]; [destruct I|]. cbn. fold (product (map (factor c) r)). destruct I as [->|I]; [|rewrite IH by auto; ring].
    unfold factor at 1. destruct (Rltb (c_opacity h) 1) eqn:L; [rb; lra|]. cbn [andb]. rewrite Z. ring. }
  rewrite Q. ring.
Qed.
Print Assumptions C93_shadow_range.
(* a ray of length 10 that starts outside, enters a volume of coefficient 1 at distance 2 and meets a half-transmitting pane 3 further on, inside it *)
Example C93_ex : let medium := fun p : prim => if N.eqb p 1 then Some 1%N else None in let props := fun _ : med => MP (1 :: nil) (0 :: nil) in
  exists out, shadow medium props empty_stack (fill 1 1) 10 (Cr 2 (Some 1%N) 1 0 (1 :: nil) :: Cr 3 (Some 2%N) 1 0 (/ 2 :: nil) :: nil) = Ok out /\ ch 0 out = exp (- 8) * (1 * (/ 2 * 1)).
Proof.
  intros medium props.
  set (s := fun (_ : nat) (w : list (option prim)) => match w with nil => 0 | _ => 1 end).
  assert (M0: forall m, medium_ok 1 (props m)). { intros m. repeat split; cbn; intros x [<-|[]]; lra. }
  destruct (C93_shadow_transmittance medium props 1 s nil empty_stack (Cr 2 (Some 1%N) 1 0 (1 :: nil) :: Cr 3 (Some 2%N) 1 0 (/ 2 :: nil) :: nil) nil 10) as (out & O1 & O2 & O3).
  - apply M0.
  - lia.
  - reflexivity.
  - intros h [<-|[<-|[]]]; cbn; repeat split; try lra; try (intros x [<-|[]]; lra).
  - cbn. lra.
  - exact I.
  - intros k c Hk Hc. assert (c = 0%nat) by lia. subst c. destruct k as [|[|[|k]]]; [| | |cbn in Hk; lia]; cbn [firstn map app c_prim s].
    + exists nil. split; [constructor; constructor|]. split; [cbn; lia|reflexivity].
    + exists (1%N :: nil). split; [|split; [cbn; lia|cbn; unfold sigma; cbn; ring]]. apply (inside_enter medium nil nil 1%N nil); [repeat constructor|discriminate|intros []|constructor].
    + exists (1%N :: nil). split; [|split; [cbn; lia|cbn; unfold sigma; cbn; ring]]. apply (inside_enter medium nil nil 1%N (Some 2%N :: nil)); [repeat constructor|discriminate|intros []|apply nested_surface; [reflexivity|constructor]].
  - exists out. rewrite app_nil_r in O1. split; [exact O1|]. rewrite (O3 0%nat ltac:(lia)). cbn [optical_depth c_t c_prim s app map product fold_right].
    assert (FA: forall t p x, factor 0 (Cr t p 1 0 (x :: nil)) = x). { intros. unfold factor. cbn. destruct (Rltb 1 1) eqn:L; [rb; lra|]. reflexivity. }
    rewrite !FA. f_equal. f_equal. ring.
Qed.

(* C94. Russian roulette does not change the mean: averaged over the random number, the surviving throughput is the throughput before, in every channel;
   a path survives with probability min(0.95, largest channel). *)
Theorem C94_roulette_unbiased : forall thr c, (c < List.length thr)%nat -> 0 < vmax thr ->
  is_RInt (fun u => match roulette u thr with Some (Some t) => ch c t | _ => 0 end) 0 1 (ch c thr) /\
  (forall u, 0 <= u < 1 -> (exists t, roulette u thr = Some (Some t)) <-> u <= Rmin (95 / 100) (vmax thr)).
Proof.
  intros thr c C V. set (p := Rmin (95 / 100) (vmax thr)). assert (P: 0 < p < 1) by (split; [apply Rmin_glb_lt; lra|pose proof (Rmin_l (95 / 100) (vmax thr)); fold p in H; lra]).
  assert (RO: forall u, roulette u thr = if Rltb p u then Some None else Some (Some (map (fun x => x / p) thr))).
  { intros u. unfold roulette, survival. fold p. cbv zeta. destruct (Rltb p u); auto. destruct (Req_EM_T p 0); [lra|auto]. }
  split.
  - replace (ch c thr) with (plus ((p - 0) * (ch c thr / p)) ((1 - p) * 0)) by (unfold plus; cbn; field; lra).
    apply (is_RInt_Chasles (V := R_NormedModule)) with p.
    + apply (is_RInt_ext (V := R_NormedModule) (fun _ => ch c thr / p)); [|apply (is_RInt_const (V := R_NormedModule))]. intros u Hu. rewrite Rmin_left, Rmax_right in Hu by lra.
      rewrite RO. destruct (Rltb p u) eqn:E; [rb; lra|]. rewrite ch_map by auto. reflexivity.
    + apply (is_RInt_ext (V := R_NormedModule) (fun _ => 0)); [|apply (is_RInt_const (V := R_NormedModule))]. intros u Hu. rewrite Rmin_left, Rmax_right in Hu by lra.
      rewrite RO. destruct (Rltb p u) eqn:E; [auto|]. rb. lra.
  - intros u Hu. rewrite RO. destruct (Rltb p u) eqn:E; rb; split; intros; try lra; eauto. destruct H as (t & H). discriminate.
Qed.
Print Assumptions C94_roulette_unbiased.
Example C94_ex : is_RInt (fun u => match roulette u (/ 2 :: / 4 :: nil) with Some (Some t) => ch 1 t | _ => 0 end) 0 1 (/ 4).
Proof. apply (C94_roulette_unbiased (/ 2 :: / 4 :: nil) 1); [cbn; lia|]. cbn. destruct (Rltb _ _) eqn:E; rb; lra. Qed.

(* C95. The indirect clamp: with no threshold set nothing changes; otherwise the indirect part of a sample is scaled by one factor for all channels (its
   colour is kept) so that no channel exceeds the threshold, samples already within the threshold are untouched, and the direct part never is. *)
Theorem C95_indirect_clamp : forall th p, 0 <= th -> nonneg (p_indirect p) ->
  sample_radiance None p = sadd (p_direct p) (p_indirect p) /\
  exists k, 0 <= k <= 1 /\ sample_radiance (Some th) p = sadd (p_direct p) (map (Rmult k) (p_indirect p)) /\
    (forall x, In x (map (Rmult k) (p_indirect p)) -> x <= th) /\ ((forall x, In x (p_indirect p) -> x <= th) -> k = 1) /\
    (k < 1 -> In th (map (Rmult k) (p_indirect p))).
Proof.
  intros th p T N. split; [reflexivity|]. unfold sample_radiance, clamp_indirect. destruct (Rltb th (vmax (p_indirect p))) eqn:E; rb.
  - set (v := vmax (p_indirect p)) in *. assert (VP: 0 < v) by lra. assert (NE: p_indirect p <> nil) by (intros Z; unfold v in VP; rewrite Z in VP; cbn in VP; lra).
    assert (K: 0 <= th / v < 1). { split; [apply Rmult_le_pos; [auto|apply Rlt_le, Rinv_0_lt_compat, VP]|]. apply (Rmult_lt_reg_r v); auto. unfold Rdiv. rewrite Rmult_assoc, Rinv_l by lra. lra. }
    exists (th / v). split; [lra|]. split; [reflexivity|]. split; [|split].
    + intros x I. apply in_map_iff in I. destruct I as (y & <- & I). pose proof (vmax_ge _ _ I) as G. fold v in G. assert (th / v * y <= th / v * v) by (apply Rmult_le_compat_l; lra).
      replace (th / v * v) with th in H by (field; lra). auto.
    + intros H. exfalso. specialize (H v (vmax_in _ NE)). lra.
    + intros _. apply in_map_iff. exists v. split; [field; lra|apply vmax_in, NE].
  - exists 1. split; [lra|]. split; [f_equal; rewrite <- (map_id (p_indirect p)) at 1; apply map_ext; intros; ring|]. split; [|split; [auto|lra]].
    intros x I. apply in_map_iff in I. destruct I as (y & <- & I). pose proof (vmax_ge _ _ I). lra.
Qed.
Print Assumptions C95_indirect_clamp.

(* C96. Whatever the rays meet: no channel of the direct or indirect radiance of a path, finished or not, is ever negative; *)
Theorem C96_radiance_nonnegative : forall medium props max_bounces n gs p,
  (forall m, nonneg (scattering (props m))) -> (forall g, In g gs -> segment_ok g) ->
  trace medium props max_bounces 0 gs (path0 n) = Done p -> nonneg (p_direct p) /\ nonneg (p_indirect p) /\ nonneg (sample_radiance None p).
Proof.
  intros medium props mb n gs p M G E. assert (P: path_ok (path0 n)) by (split; [|split]; apply nonneg_fill; lra).
  destruct (trace_ok medium props mb gs M G 0 (path0 n) p P (or_introl E)) as (_ & A & B). split; [exact A|]. split; [exact B|]. apply nonneg_sadd; auto.
Qed.
Print Assumptions C96_radiance_nonnegative.
(* a path ends after at most max_bounces ray segments, those that slip through a partly transparent surface not counted; with no bounces the sample is black; *)
Theorem C96_bounded : forall medium props max_bounces n gs,
  (forall p, trace medium props max_bounces 0 gs (path0 n) = Unfinished p -> (List.length (filter (fun g => negb (slips g)) gs) < max_bounces)%nat) /\
  trace medium props 0 0 gs (path0 n) = Done (path0 n).
Proof. intros. split; [intros p H; apply (trace_count medium props _ gs 0 _ _ H)|]. destruct gs; reflexivity. Qed.
Print Assumptions C96_bounded.
(* and a camera ray that meets a light or nothing shows exactly the light's radiance or the background's. *)
Theorem C96_primary : forall medium props max_bounces n g r p, (0 < max_bounces)%nat ->
  match g_target g with Miss env => List.length env = n | HitLight Le _ => List.length Le = n | HitSurface _ => False end ->
  trace medium props max_bounces 0 (g :: r) (path0 n) = Done p ->
  sample_radiance None p = match g_target g with Miss env => env | HitLight Le _ => Le | HitSurface _ => nil end.
Proof.
  assert (X: forall l n (x : list R -> list R), List.length l = n -> (forall y, List.length y = n -> List.length (x y) = n /\ forall c, (c < n)%nat -> ch c (x y) = ch c y) ->
     sadd (sadd (fill n 0) (x (smul (fill n 1) l))) (fill n 0) = l).
  { intros l n x L H. destruct (H (smul (fill n 1) l)) as [H1 H2]; [rewrite smul_length; rewrite fill_length; auto|].
    assert (L2: List.length (sadd (fill n 0) (x (smul (fill n 1) l))) = n) by (unfold sadd; rewrite zip_length; rewrite fill_length; lia).
    apply (nth_ext _ _ 0 0); [unfold sadd at 1; rewrite zip_length; rewrite ?L2, ?fill_length; lia|]. intros c Hc. unfold sadd at 1 in Hc. rewrite zip_length in Hc by (rewrite L2, fill_length; auto). rewrite L2 in Hc.
    change (ch c (sadd (sadd (fill n 0) (x (smul (fill n 1) l))) (fill n 0)) = ch c l). unfold sadd at 1. rewrite ch_zip by (rewrite ?L2, ?fill_length; auto). unfold sadd. rewrite ch_zip by (rewrite ?fill_length; lia).
    rewrite !ch_fill by auto. rewrite H2 by auto. unfold smul. rewrite ch_zip by (rewrite ?fill_length; lia). rewrite ch_fill by auto. ring. }
  intros medium props mb n g r p MB G. destruct mb; [lia|]. cbn [trace Nat.leb]. unfold iterate. cbn [path0 p_stack top empty_stack size Nat.eqb]. unfold arrive.
  destruct (g_target g) as [env|Le lp|s]; [| |destruct G].
  - intros E. assert (p = deposit 0 (smul (fill n 1) env) (path0 n)) by (injection E; intros <-; reflexivity). subst p. unfold sample_radiance, deposit. cbn [Nat.eqb p_direct p_indirect clamp_indirect path0].
    apply (X env n (fun x => x)); auto.
  - unfold hit_light. cbn [Nat.eqb path0 p_thr]. intros E. assert (p = deposit 0 (sscale 1 (smul (fill n 1) Le)) (path0 n)) by (injection E; intros <-; reflexivity). subst p. unfold sample_radiance, deposit. cbn [Nat.eqb p_direct p_indirect clamp_indirect path0].
    apply (X Le n (sscale 1)); auto. intros y Hy. split; [rewrite sscale_length; auto|]. intros c Hc. rewrite ch_sscale by lia. ring.
Qed.
Print Assumptions C96_primary.
(* a three segment path: a partly transparent surface is slipped through, a lit surface scatters, the environment is met *)
Example C96_ex : let gs := Sg (HitSurface (Su None (/ 2) (3 / 4) nil None 0 false)) 1 0 nil 1 1 ::
    Sg (HitSurface (Su None 1 0 (SLt (2 :: nil) 1 (1 :: nil) 1 0 (1 :: nil) :: nil) (Some (BC (/ 2 :: nil) 1 false)) 0 false)) 1 0 nil 1 1 :: Sg (Miss (4 :: nil)) 1 0 nil 1 1 :: nil in
  (forall g, In g gs -> segment_ok g) /\ exists p, trace (fun _ => None) (fun _ => MP nil nil) 3 0 gs (path0 1) = Done p /\ sample_radiance None p = 4 :: nil.
Proof.
  assert (N: forall x, 0 <= x -> nonneg (x :: nil)) by (intros x H y [<-|[]]; auto).
  intros gs. split.
  - intros g [<-|[<-|[<-|[]]]]; unfold segment_ok; cbn; (split; [|split; [intros ? []|lra]]); try (apply N; lra).
    + split; [intros ? []|discriminate].
    + split; [|intros b E; inversion E; apply N; lra]. intros l [<-|[]]. unfold surf_light_ok. cbn. repeat split; try lra; apply N; lra.
  - assert (A: Rltb (/ 2) 1 = true) by (apply Rltb_true; lra). assert (B: Rltb (/ 2) (3 / 4) = true) by (apply Rltb_true; lra). assert (C: Rltb 1 1 = false) by (apply Rltb_false; lra).
    assert (HE: heuristic 1 0 = Some 1) by (unfold heuristic; destruct (Req_EM_T (1 * 1 + 0 * 0) 0) as [Z|Z]; [lra|]; f_equal; field).
    assert (D: Rleb 1 0 = false) by (apply Rleb_false; lra).
    eexists. split.
    + unfold gs. cbn [trace Nat.leb]. unfold iterate at 1. cbn [path0 p_stack top empty_stack size Nat.eqb arrive g_target]. unfold surface_step at 1. cbn [s_opacity s_u_opacity]. rewrite A, B. cbn [andb toggle s_prim p_stack].
      unfold iterate at 1. cbn [set_stack path0 p_thr p_direct p_indirect p_prev p_stack top empty_stack size Nat.eqb arrive g_target]. unfold surface_step at 1. cbn [s_opacity s_u_opacity]. rewrite C. cbn [andb s_lights nee_all].
      unfold nee_surface. cbn [l_tr vmax fold_left]. rewrite D. cbn [l_pdf l_bpdf]. rewrite HE.
      cbn [s_bsdf Nat.leb s_transmitted]. unfold iterate. cbn [set_thr set_prev deposit Nat.eqb p_stack p_thr p_direct p_indirect p_prev top size arrive g_target]. reflexivity.
    + cbn. f_equal. field.
Qed.
