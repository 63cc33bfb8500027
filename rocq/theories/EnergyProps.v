(* C89: how much of the light a surface receives it sends back, for every BSDF that is not azimuthally symmetric.
   By reciprocity (C56) the light sent to all directions from one is the light received from all directions by one. *)
From Coq Require Import Reals Lra.
From Coquelicot Require Import Coquelicot.
From Verif Require Import Common Vec3 LightModel BsdfModel BsdfSpec BsdfProps EnergyProofs.
From Verif Require AiryProps.
Open Scope R_scope.

(** ** Specification *)
(* the direction that makes the angle of cosine z with n, at azimuth phi from t *)
Definition toward (t b n : vec3) (z phi : R) : vec3 :=
  vadd (vscale (sqrt (1 - z * z)) (vadd (vscale (cos phi) t) (vscale (sin phi) b))) (vscale z n).
(* x is the integral of BSDF times cosine over the hemisphere (solid angle = dz dphi), for a view of cosine c; azimuths are counted from the plane of the view *)
Definition reflectance (k : bsdf) (t b n : vec3) (p : params) (c x : R) : Prop :=
  let f z phi := eval k (toward t b n c 0) (toward t b n z phi) n p * z in
  (forall phi, ex_RInt (fun z => f z phi) 0 1) /\ is_RInt (fun phi => RInt (fun z => f z phi) 0 1) 0 (2 * PI) x.
(* every view is of that form *)
Lemma every_view n wo : unit n -> unit wo -> exists t b, orthonormal t b n /\ wo = toward t b n (dot wo n) 0.
Proof.
  intros N O. pose proof (unit_dot_le wo n O N) as L. set (c := dot wo n) in *.
  assert (P : exists t, unit t /\ dot t n = 0 /\ wo = vadd (vscale (sqrt (1 - c * c)) t) (vscale c n)).
  { set (w := vsub wo (vscale c n)). assert (W : dot w w = 1 - c * c). { unfold w, c, dot, vsub, vscale, unit in *; unfold dot in *; cbn [vx vy vz] in *. set (d := vx wo * vx n + vy wo * vy n + vz wo * vz n) in *.
      transitivity ((vx wo * vx wo + vy wo * vy wo + vz wo * vz wo) - 2 * d * d + d * d * (vx n * vx n + vy n * vy n + vz n * vz n)); [unfold d; ring|]. rewrite N, O. ring. }
    assert (WN : dot w n = 0). { unfold w, dot, vsub, vscale; cbn [vx vy vz]. transitivity (c - c * dot n n); [unfold c, dot; ring|]. unfold unit in N. rewrite N. ring. }
    destruct (Req_dec (1 - c * c) 0) as [Z|Z].
    - assert (W0 : w = vzero). { assert (vx w * vx w + vy w * vy w + vz w * vz w = 0) by (unfold dot in W; lra). destruct w as [x y z]. unfold vzero. cbn in *. f_equal; nra. }
      assert (E : wo = vscale c n). { unfold w, vsub, vscale, vzero in W0. destruct wo as [x y z], n as [x' y' z']. unfold vscale; cbn in *. injection W0; intros. f_equal; lra. }
      assert (T : exists t, unit t /\ dot t n = 0).
      { unfold unit in N. destruct n as [x y z]. unfold dot in N; cbn in N. destruct (Req_dec (x * x + y * y) 0) as [Q|Q].
        - exists (V3 1 0 0). unfold unit, dot; cbn. split; [ring|nra].
        - set (s := sqrt (x * x + y * y)). assert (SS : s * s = x * x + y * y) by (apply sqrt_sqrt; nra). assert (0 < s) by (apply sqrt_lt_R0; assert (0 <= x * x + y * y) by nra; lra).
          exists (V3 (- y / s) (x / s) 0). unfold unit, dot; cbn. split; [|field; lra]. transitivity ((x * x + y * y) / (s * s)); [field; lra|]. rewrite SS. field; lra. }
      destruct T as (t & T1 & T2). exists t. split; [auto|]. split; [auto|]. rewrite Z, sqrt_0. rewrite E at 1. destruct t, n; unfold vadd, vscale; cbn. f_equal; ring.
    - assert (0 < 1 - c * c) by nra. set (s := sqrt (1 - c * c)). assert (SS : s * s = 1 - c * c) by (apply sqrt_sqrt; lra). assert (0 < s) by (apply sqrt_lt_R0; auto).
      exists (vscale (/ s) w). split; [|split].
      + unfold unit. transitivity (dot w w / (s * s)); [unfold dot, vscale; cbn; field; lra|]. rewrite W, SS. field; lra.
      + transitivity (/ s * dot w n); [unfold dot, vscale; cbn; ring|]. rewrite WN. ring.
      + unfold w. destruct wo, n; unfold vadd, vscale, vsub; cbn. f_equal; field; lra. }
  destruct P as (t & T1 & T2 & E). exists t, (cross n t). split.
  - unfold orthonormal, unit in *. destruct t as [a1 a2 a3], n as [b1 b2 b3]. unfold dot, cross in *; cbn in *. split; [auto|]. split.
    + transitivity ((b1 * b1 + b2 * b2 + b3 * b3) * (a1 * a1 + a2 * a2 + a3 * a3) - (a1 * b1 + a2 * b2 + a3 * b3) * (a1 * b1 + a2 * b2 + a3 * b3)); [ring|]. rewrite N, T1, T2. ring.
    + split; [auto|]. split; [ring|]. split; [auto|ring].
  - unfold toward. rewrite cos_0, sin_0. rewrite E at 1. fold c. destruct t, n; unfold vadd, vscale, cross; cbn. f_equal; ring.
Qed.

(** ** the integrand *)
Section Surface.
Variables (t b n : vec3) (p : params) (c : R).
Hypothesis (HO : orthonormal t b n) (Hc : 0 < c <= 1).
Let s z := sqrt (1 - z * z).
Lemma toward_n z phi : dot (toward t b n z phi) n = z.
Proof.
  destruct HO as (_ & _ & N & _ & A & B). unfold unit in N. unfold toward. transitivity (s z * (cos phi * dot t n + sin phi * dot b n) + z * dot n n); [unfold dot, vadd, vscale; cbn; fold (s z); ring|]. rewrite A, B, N. ring.
Qed.
Lemma toward_dot z phi : dot (toward t b n z phi) (toward t b n c 0) = s z * s c * cos phi + z * c.
Proof.
  destruct HO as (T & B & N & TB & A & A'). unfold unit in *. unfold toward. rewrite cos_0, sin_0. fold (s z) (s c).
  transitivity (s z * s c * (cos phi * dot t t + sin phi * dot t b) + s z * c * (cos phi * dot t n + sin phi * dot b n) + z * s c * dot t n + z * c * dot n n); [unfold dot, vadd, vscale; cbn; ring|].
  rewrite T, TB, A, A', N. ring.
Qed.
Lemma s_nonneg z : 0 <= s z. Proof. apply sqrt_pos. Qed.
Lemma s_le_1 z : s z <= 1.
Proof. unfold s. destruct (Rle_lt_dec 0 (1 - z * z)); [|rewrite sqrt_neg_0; lra]. apply Rle_trans with (sqrt 1); [apply sqrt_le_1; nra|rewrite sqrt_1; lra]. Qed.
Lemma s_decr z y : 0 <= z -> z <= y -> y <= 1 -> s y <= s z.
Proof. intros. unfold s. apply sqrt_le_1; nra. Qed.

Lemma s_continuous z : continuous s z.
Proof. unfold s. apply (continuous_comp (fun z => 1 - z * z) sqrt); [apply (ex_derive_continuous (fun z : R => 1 - z * z)); auto_derive; auto|]. apply continuity_pt_filterlim. destruct (Rle_lt_dec 0 (1 - z * z)) as [L|L]; [apply continuity_pt_sqrt; auto|].
  apply (continuity_pt_ext_loc (fun _ => 0)); [|apply continuity_pt_const; intros ? ?; reflexivity].
  assert (P : 0 < - (1 - z * z)) by lra. exists (mkposreal _ P). intros y Y. symmetry. apply sqrt_neg_0. unfold ball in Y; cbn in Y. unfold AbsRing_ball, abs, minus, plus, opp in Y; cbn in Y. apply Rabs_def2 in Y. lra. Qed.
Definition dd (z phi : R) : R := s z * s c * cos phi + z * c.
Definition beta (z phi : R) : R := exp (- acosc (dd z phi) * (3 * / PI)).
Definition gm (z phi : R) : R := p_albedo p * ((1 - beta z phi) * / PI + beta z phi * (1 / (4 * PI * (z + c)))) * z.
Lemma gm_eval z phi : 0 < z < 1 -> eval McEwen (toward t b n c 0) (toward t b n z phi) n p * z = gm z phi.
Proof.
  intros Z. cbn [eval]. rewrite !toward_n. rewrite !(proj2 (Rleb_false _ _)) by lra. cbn [orb]. unfold cos_alpha_of. rewrite toward_dot. reflexivity.
Qed.
Lemma beta_pos z phi : 0 < beta z phi. Proof. apply exp_pos. Qed.
Lemma dd_continuous z phi : continuous (fun q : R * R => dd (fst q) (snd q)) (z, phi).
Proof.
  unfold dd. apply (continuous_plus (fun q : R * R => s (fst q) * s c * cos (snd q)) (fun q => fst q * c)).
  - apply (continuous_mult (fun q : R * R => s (fst q) * s c) (fun q => cos (snd q))).
    + apply (continuous_mult (fun q : R * R => s (fst q)) (fun _ => s c)); [|apply continuous_const]. apply (continuous_comp fst s); [apply continuous_fst|apply s_continuous].
    + apply (continuous_comp snd cos); [apply continuous_snd|]. apply continuous_cos.
  - apply (continuous_mult (fun q : R * R => fst q) (fun _ => c)); [apply continuous_fst|apply continuous_const].
Qed.
Lemma beta_continuous z phi : continuous (fun q : R * R => beta (fst q) (snd q)) (z, phi).
Proof.
  unfold beta. apply (continuous_comp (fun q : R * R => - acosc (dd (fst q) (snd q)) * (3 * / PI)) exp); [|apply (ex_derive_continuous exp); auto_derive; auto].
  apply (continuous_mult (fun q : R * R => - acosc (dd (fst q) (snd q))) (fun _ => 3 * / PI)); [|apply continuous_const].
  apply (continuous_opp (fun q : R * R => acosc (dd (fst q) (snd q)))). apply (continuous_comp (fun q : R * R => dd (fst q) (snd q)) acosc); [apply dd_continuous|apply acosc_continuous].
Qed.
Lemma gm_continuous z phi : 0 <= z -> continuity_2d_pt gm z phi.
Proof.
  intros Z. apply continuity_2d_pt_filterlim. change (continuous (fun q : R * R => gm (fst q) (snd q)) (z, phi)). unfold gm.
  apply (continuous_mult (fun q : R * R => p_albedo p * ((1 - beta (fst q) (snd q)) * / PI + beta (fst q) (snd q) * (1 / (4 * PI * (fst q + c))))) (fun q => fst q)); [|apply continuous_fst].
  apply (continuous_mult (fun _ => p_albedo p) (fun q : R * R => (1 - beta (fst q) (snd q)) * / PI + beta (fst q) (snd q) * (1 / (4 * PI * (fst q + c))))); [apply continuous_const|].
  apply (continuous_plus (fun q : R * R => (1 - beta (fst q) (snd q)) * / PI) (fun q => beta (fst q) (snd q) * (1 / (4 * PI * (fst q + c))))).
  - apply (continuous_mult (fun q : R * R => 1 - beta (fst q) (snd q)) (fun _ => / PI)); [|apply continuous_const]. apply (continuous_minus (fun _ : R * R => 1) (fun q => beta (fst q) (snd q))); [apply continuous_const|apply beta_continuous].
  - apply (continuous_mult (fun q : R * R => beta (fst q) (snd q)) (fun q => 1 / (4 * PI * (fst q + c)))); [apply beta_continuous|].
    apply (continuous_comp fst (fun z => 1 / (4 * PI * (z + c)))); [apply continuous_fst|]. apply (ex_derive_continuous (fun z : R => 1 / (4 * PI * (z + c)))). auto_derive. pose proof PI_RGT_0. cbn. nra.
Qed.
(* along a meridian the share beta falls by a factor of 9 at most from the horizon to a quarter of the way *)
Lemma acosc_decr x y : x <= y -> acosc y <= acosc x.
Proof.
  intros L. unfold acosc. assert (K : clamp x (-1) 1 <= clamp y (-1) 1).
  { unfold clamp. destruct (Rltb x (-1)) eqn:A, (Rltb 1 x) eqn:B, (Rltb y (-1)) eqn:C, (Rltb 1 y) eqn:D; rewrite ?Rltb_true, ?Rltb_false in *; lra. }
  pose proof (clamp_b x). pose proof (clamp_b y). set (u := clamp x (-1) 1) in *. set (v := clamp y (-1) 1) in *. clearbody u v.
  apply Rnot_lt_le. intros G. pose proof (acos_bound u). pose proof (acos_bound v). assert (cos (acos v) < cos (acos u)) by (apply cos_decreasing_1; lra). rewrite !cos_acos in H3 by lra. lra.
Qed.
Lemma beta_bounds phi : exists lo hi, 0 < lo /\ hi <= 9 * lo /\ (forall z, 0 <= z <= / 4 -> beta z phi <= hi) /\ forall z, / 4 <= z <= 1 -> lo <= beta z phi.
Proof.
  pose proof PI_RGT_0 as PP. assert (IP : 0 < 3 * / PI) by (apply Rmult_lt_0_compat; [lra|apply Rinv_0_lt_compat; lra]).
  assert (BM : forall u v, u <= v -> exp (- v * (3 * / PI)) <= exp (- u * (3 * / PI))). { intros u v L. destruct (Req_dec u v) as [->|]; [lra|]. left. apply exp_increasing. nra. }
  destruct (Rle_lt_dec 0 (cos phi)) as [C|C].
  - exists (exp (- (PI / 2) * (3 * / PI))), 1. split; [apply exp_pos|]. split; [|split].
    + replace (- (PI / 2) * (3 * / PI)) with (- (3 / 2)) by (field; lra). rewrite exp_Ropp. assert (E : exp (3 / 2) <= 9).
      { apply Rle_trans with (exp (1 + 1)); [left; apply exp_increasing; lra|]. rewrite exp_plus. pose proof exp_le_3. pose proof (exp_pos 1). nra. }
      pose proof (exp_pos (3 / 2)). apply Rmult_le_reg_r with (exp (3 / 2)); auto. rewrite Rmult_assoc, Rinv_l by lra. lra.
    + intros z _. unfold beta. rewrite <- exp_0. replace 0 with (- 0 * (3 * / PI)) by ring. apply BM. unfold acosc. apply acos_bound.
    + intros z Z. unfold beta. apply BM. replace (PI / 2) with (acosc 0). { apply acosc_decr. unfold dd. pose proof (s_nonneg z). pose proof (s_nonneg c). apply Rplus_le_le_0_compat; [repeat apply Rmult_le_pos; auto|apply Rmult_le_pos; lra]. }
      unfold acosc, clamp, Rltb. destruct (Rlt_dec _ _); [lra|]. destruct (Rlt_dec _ _); [lra|]. apply acos_0.
  - exists (beta (/ 4) phi), (beta (/ 4) phi). pose proof (beta_pos (/ 4) phi). split; [auto|]. split; [lra|].
    assert (DM : forall z y, 0 <= z -> z <= y -> y <= 1 -> dd z phi <= dd y phi). { intros z y Z L Y. unfold dd. pose proof (s_decr z y Z L Y). pose proof (s_nonneg c). assert (z * c <= y * c) by nra. assert (s c * cos phi <= 0) by nra. rewrite !Rmult_assoc. nra. }
    split; intros z Z; unfold beta; apply BM, acosc_decr, DM; lra.
Qed.
Lemma meridian phi : 0 <= p_albedo p -> ex_RInt (fun z => gm z phi) 0 1 /\ 0 <= RInt (fun z => gm z phi) 0 1 <= p_albedo p / (2 * PI).
Proof.
  intros HA. pose proof PI_RGT_0 as PP. assert (C1 : forall u v, 0 <= u -> u <= v -> ex_RInt (fun z => gm z phi) u v).
  { intros u v U V. apply (ex_RInt_continuous (V := R_CompleteNormedModule)). intros z Z. rewrite Rmin_left, Rmax_right in Z by lra. pose proof (gm_continuous z phi ltac:(lra)) as G. apply continuity_2d_pt_filterlim in G.
    apply (continuous_comp_2 (fun z : R => z) (fun _ => phi) gm); [apply continuous_id|apply continuous_const|exact G]. }
  split; [apply C1; lra|]. split.
  { apply RInt_ge_0; [lra|apply C1; lra|]. intros z Z. unfold gm. assert (0 < beta z phi <= 1). { split; [apply beta_pos|]. unfold beta. rewrite <- exp_0. assert (0 <= acosc (dd z phi) * (3 * / PI)). { apply Rmult_le_pos; [apply acos_bound|]. apply Rmult_le_pos; [lra|left; apply Rinv_0_lt_compat; lra]. }
      destruct (Req_dec (acosc (dd z phi) * (3 * / PI)) 0) as [E|E]; [replace (- acosc (dd z phi) * (3 * / PI)) with 0 by lra; lra|left; apply exp_increasing; lra]. }
    apply Rmult_le_pos; [|lra]. apply Rmult_le_pos; [lra|]. apply Rplus_le_le_0_compat; apply Rmult_le_pos; try lra; [left; apply Rinv_0_lt_compat; lra|]. unfold Rdiv. rewrite Rmult_1_l. left. apply Rinv_0_lt_compat. nra. }
  destruct (beta_bounds phi) as (lo & hi & L & LH & BH & BL). set (a := p_albedo p) in *.
  assert (HZ : forall z, 0 < z -> gm z phi <= a / PI * (z - beta z phi * (z - / 4))).
  { intros z Z. unfold gm. fold a. replace (a * ((1 - beta z phi) * / PI + beta z phi * (1 / (4 * PI * (z + c)))) * z) with (a / PI * (z - beta z phi * (z - / 4 * (z / (z + c))))) by (field; lra).
    apply Rmult_le_compat_l; [apply Rmult_le_pos; [auto|left; apply Rinv_0_lt_compat; lra]|]. pose proof (beta_pos z phi). assert (z / (z + c) <= 1). { apply Rmult_le_reg_r with (z + c); [lra|]. unfold Rdiv. rewrite Rmult_assoc, Rinv_l by lra. lra. } nra. }
  assert (AP : 0 <= a / PI) by (apply Rmult_le_pos; [auto|left; apply Rinv_0_lt_compat; lra]).
  assert (I1 : RInt (fun z => gm z phi) 0 (/ 4) <= a / PI * (/ 32 + hi / 32)).
  { pose (F := fun z : R => a / PI * (z * z / 2 + hi * (z / 4 - z * z / 2))). replace (a / PI * (/ 32 + hi / 32)) with (minus (F (/ 4)) (F 0)) by (unfold minus, plus, opp, F; cbn; field; lra).
    apply (is_RInt_le (fun z => gm z phi) (fun z => a / PI * (z + hi * (/ 4 - z))) 0 (/ 4)); [lra|apply (RInt_correct (V := R_CompleteNormedModule)); apply C1; lra| |].
    - apply (is_RInt_derive F); intros x _; [unfold F; auto_derive; [auto|field; lra]|apply (ex_derive_continuous (fun z : R => a / PI * (z + hi * (/ 4 - z)))); auto_derive; auto].
    - intros z Z. apply Rle_trans with (1 := HZ z ltac:(lra)). apply Rmult_le_compat_l; auto. pose proof (BH z ltac:(lra)). nra. }
  assert (I2 : RInt (fun z => gm z phi) (/ 4) 1 <= a / PI * (15 / 32 - lo * (9 / 32))).
  { pose (F := fun z : R => a / PI * (z * z / 2 - lo * (z * z / 2 - z / 4))). replace (a / PI * (15 / 32 - lo * (9 / 32))) with (minus (F 1) (F (/ 4))) by (unfold minus, plus, opp, F; cbn; field; lra).
    apply (is_RInt_le (fun z => gm z phi) (fun z => a / PI * (z - lo * (z - / 4))) (/ 4) 1); [lra|apply (RInt_correct (V := R_CompleteNormedModule)); apply C1; lra| |].
    - apply (is_RInt_derive F); intros x _; [unfold F; auto_derive; [auto|field; lra]|apply (ex_derive_continuous (fun z : R => a / PI * (z - lo * (z - / 4)))); auto_derive; auto].
    - intros z Z. apply Rle_trans with (1 := HZ z ltac:(lra)). apply Rmult_le_compat_l; auto. pose proof (BL z ltac:(lra)). nra. }
  assert (CH : RInt (fun z => gm z phi) 0 1 = RInt (fun z => gm z phi) 0 (/ 4) + RInt (fun z => gm z phi) (/ 4) 1).
  { symmetry. apply (RInt_Chasles (V := R_CompleteNormedModule)); apply C1; lra. }
  rewrite CH. replace (a / (2 * PI)) with (a / PI * / 2) by (field; lra). apply Rle_trans with (a / PI * (/ 32 + hi / 32) + a / PI * (15 / 32 - lo * (9 / 32))); [lra|]. rewrite <- Rmult_plus_distr_l. apply Rmult_le_compat_l; [auto|]. lra.
Qed.
Lemma mcewen_share : 0 <= p_albedo p -> exists x, reflectance McEwen t b n p c x /\ 0 <= x <= p_albedo p.
Proof.
  intros HA. pose proof PI_RGT_0 as PP. assert (EX : forall phi z, Rmin 0 1 < z < Rmax 0 1 -> gm z phi = eval McEwen (toward t b n c 0) (toward t b n z phi) n p * z) by (intros phi z Z; rewrite Rmin_left, Rmax_right in Z by lra; symmetry; apply gm_eval; auto).
  assert (EI : ex_RInt (fun phi => RInt (fun z => gm z phi) 0 1) 0 (2 * PI)).
  { apply (ex_RInt_continuous (V := R_CompleteNormedModule)). intros phi _. apply (param_continuous gm 0 1 phi); [lra|]. intros z y Z. apply gm_continuous. lra. }
  exists (RInt (fun phi => RInt (fun z => gm z phi) 0 1) 0 (2 * PI)). split; [split|].
  - intros phi. apply (ex_RInt_ext (fun z => gm z phi)); [apply EX|apply meridian; auto].
  - apply (is_RInt_ext (fun phi => RInt (fun z => gm z phi) 0 1)); [intros phi _; apply RInt_ext, EX|]. apply (RInt_correct (V := R_CompleteNormedModule)); auto.
  - split; [apply RInt_ge_0; [lra|auto|intros phi _; apply meridian; auto]|].
    apply (is_RInt_le (fun phi => RInt (fun z => gm z phi) 0 1) (fun _ => p_albedo p / (2 * PI)) 0 (2 * PI)); [lra|apply (RInt_correct (V := R_CompleteNormedModule)); auto| |intros; apply meridian; auto].
    pose proof (is_RInt_const (V := R_NormedModule) 0 (2 * PI) (p_albedo p / (2 * PI))) as Q. unfold scal in Q; cbn in Q; unfold mult in Q; cbn in Q. replace ((2 * PI - 0) * (p_albedo p / (2 * PI))) with (p_albedo p) in Q by (field; lra). exact Q.
Qed.
End Surface.

Theorem C89_mcewen : forall t b n p c, orthonormal t b n -> 0 < c <= 1 -> 0 <= p_albedo p ->
  exists x, reflectance McEwen t b n p c x /\ 0 <= x <= p_albedo p.
Proof. intros. apply mcewen_share; auto. Qed.

(** ** Hapke: a white, isotropically scattering surface *)
Lemma ln_lower x : 0 < x -> 2 * x / (2 + x) < ln (1 + x).
Proof.
  intros X. pose (g := fun x => ln (1 + x) - 2 * x / (2 + x)).
  destruct (MVT_cor2 g (fun x => x * x / ((1 + x) * ((2 + x) * (2 + x)))) 0 x X) as (u & E & U).
  - intros u U. apply is_derive_Reals. unfold g. auto_derive; [split; [lra|split; [lra|auto]]|field; split; lra].
  - assert (0 < u * u / ((1 + u) * ((2 + u) * (2 + u))) * (x - 0)). { apply Rmult_lt_0_compat; [|lra]. apply Rdiv_lt_0_compat; [nra|]. repeat apply Rmult_lt_0_compat; lra. }
    rewrite <- E in H. unfold g in H. rewrite Rplus_0_r, ln_1 in H. lra.
Qed.
(* it sends back more than it receives from every direction nearer to the normal than 60 degrees, and less from the others *)
Theorem C89_refuted_hapke : forall t b n p c h B0 g, orthonormal t b n -> 0 < c <= 1 -> p_albedo p = 1 -> (h <= 0 \/ B0 = 0) ->
  exists x, reflectance (Hapke h B0 0 g) t b n p c x /\ (1 < x <-> cos (PI / 3) < c) /\ (x < 1 <-> c < cos (PI / 3)).
Proof.
  intros t b n p c h B0 g HO Hc Ha HB. pose proof PI_RGT_0 as PP. pose (F := fun z => (1 + 2 * c) / (4 * PI) * (z * z + (1 - 2 * c) * z - c * (1 - 2 * c) * ln (z + c))). set (y := F 1 - F 0).
  pose (f := fun z => (1 + 2 * c) / (4 * PI) * (z * (1 + 2 * z) / (z + c))).
  assert (EV : forall phi z, 0 < z < 1 -> f z = eval (Hapke h B0 0 g) (toward t b n c 0) (toward t b n z phi) n p * z).
  { intros phi z Z. cbn [eval]. rewrite !(toward_n t b n HO). rewrite !(proj2 (Rleb_false _ _)) by lra. cbn [orb].
    assert (OE : forall a, opposition_effect h B0 a = 0) by (intros a; unfold opposition_effect; destruct (Rleb h 0) eqn:E; [reflexivity|]; rb; destruct HB as [ HB | -> ]; [lra|unfold Rdiv; ring]).
    assert (HG : forall a, hg 0 a = 1). { intros a. unfold hg. replace (1 + 0 * 0 - 2 * 0 * a) with 1 by ring. unfold cpow. destruct (Req_EM_T 1 0); [lra|]. unfold Rpower. rewrite ln_1, (Rmult_0_r (3 / 2)), exp_0. field. }
    rewrite OE. unfold phase_function_dhg. rewrite Ropp_0, !HG. unfold h_function. rewrite Ha. replace (sqrt (1 - 1)) with 0 by (rewrite Rminus_diag_eq by reflexivity; symmetry; apply sqrt_0). unfold f. field. lra. }
  assert (FI : is_RInt f 0 1 y).
  { apply (is_RInt_derive F); intros x X; rewrite Rmin_left, Rmax_right in X by lra.
    - unfold F, f. auto_derive; [lra|field; lra].
    - apply (ex_derive_continuous f). unfold f. auto_derive. lra. }
  assert (FE : forall phi, is_RInt (fun z => eval (Hapke h B0 0 g) (toward t b n c 0) (toward t b n z phi) n p * z) 0 1 y).
  { intros phi. apply (is_RInt_ext f); auto. intros z Z. rewrite Rmin_left, Rmax_right in Z by lra. apply EV; auto. }
  exists (2 * PI * y). split; [split|].
  - intros phi. exists y. apply FE.
  - apply (is_RInt_ext (fun _ => y)). { intros phi _. symmetry. apply is_RInt_unique, FE. }
    pose proof (is_RInt_const (V := R_NormedModule) 0 (2 * PI) y) as Q. unfold scal in Q; cbn in Q; unfold mult in Q; cbn in Q. rewrite Rminus_0_r in Q. exact Q.
  - set (d := 1 - c * (ln (1 + c) - ln c)). assert (Y : 2 * PI * y = 1 + (2 * c - 1) / 2 * (1 - (2 * c + 1) * d)).
    { unfold y, F, d. rewrite Rplus_0_l. field. lra. }
    assert (D : (2 * c + 1) * d < 1).
    { assert (0 < / c) by (apply Rinv_0_lt_compat; lra). pose proof (ln_lower (/ c) H) as L. replace (1 + / c) with ((1 + c) / c) in L by (field; lra). rewrite ln_div in L by lra.
      replace (2 * / c / (2 + / c)) with (2 / (2 * c + 1)) in L by (field; lra). unfold d. set (l := ln (1 + c) - ln c) in *. clearbody l.
      assert (2 < l * (2 * c + 1)). { apply Rmult_lt_compat_r with (r := 2 * c + 1) in L; [|lra]. replace (2 / (2 * c + 1) * (2 * c + 1)) with 2 in L by (field; lra). lra. } nra. }
    rewrite Y. rewrite cos_PI3. split; split; intros; nra.
Qed.

(** ** Oren-Nayar *)
Lemma quarter_disc : is_RInt (fun z => sqrt (1 - z * z)) 0 1 (PI / 4).
Proof.
  pose proof PI_RGT_0 as PP. pose (F := fun y : R => (y + sin y * cos y) / 2).
  assert (A : is_RInt (fun y => scal (cos y) (sqrt (1 - sin y * sin y))) 0 (PI / 2) (RInt (fun z => sqrt (1 - z * z)) (sin 0) (sin (PI / 2)))).
  { apply (is_RInt_comp (V := R_CompleteNormedModule) (fun z => sqrt (1 - z * z)) sin cos).
    - intros y _. apply (s_continuous (sin y)).
    - intros y _. split; [auto_derive; [auto|ring]|apply continuous_cos]. }
  assert (B : is_RInt (fun y => scal (cos y) (sqrt (1 - sin y * sin y))) 0 (PI / 2) (PI / 4)).
  { apply (is_RInt_ext (fun y => cos y * cos y)).
    - intros y Y. rewrite Rmin_left, Rmax_right in Y by lra. unfold scal; cbn; unfold mult; cbn. f_equal. symmetry. pose proof (sin2_cos2 y) as Q. unfold Rsqr in Q. replace (1 - sin y * sin y) with (cos y * cos y) by lra. apply sqrt_square. apply cos_ge_0; lra.
    - replace (PI / 4) with (minus (F (PI / 2)) (F 0)). 2:{ unfold minus, plus, opp, F; cbn. rewrite sin_0, cos_PI2, sin_PI2. field. }
      apply (is_RInt_derive F); intros y _; [unfold F; auto_derive; [auto|]; pose proof (sin2_cos2 y) as Q; unfold Rsqr in Q; nra|apply (ex_derive_continuous (fun y : R => cos y * cos y)); auto_derive; auto]. }
  pose proof (is_RInt_unique (V := R_CompleteNormedModule) _ _ _ _ A) as A1. pose proof (is_RInt_unique (V := R_CompleteNormedModule) _ _ _ _ B) as B1. cbn in A1, B1. pose proof (eq_trans (eq_sym A1) B1) as Q. rewrite sin_0, sin_PI2 in Q. rewrite <- Q. apply (RInt_correct (V := R_CompleteNormedModule)). apply (ex_RInt_continuous (V := R_CompleteNormedModule)). intros z _. apply (s_continuous z).
Qed.
Lemma half_cosine : is_RInt (fun phi => Rmax 0 (cos phi)) 0 (2 * PI) 2.
Proof.
  pose proof PI_RGT_0 as PP.
  assert (S : forall u v, (forall y, u < y < v -> 0 <= cos y) -> u <= v -> is_RInt (fun phi => Rmax 0 (cos phi)) u v (sin v - sin u)).
  { intros u v N L. apply (is_RInt_ext cos); [intros y Y; rewrite Rmin_left, Rmax_right in Y by lra; symmetry; apply Rmax_right; auto|]. change (sin v - sin u) with (minus (sin v) (sin u)). apply (is_RInt_derive sin); intros y _; [auto_derive; [auto|ring]|apply continuous_cos]. }
  assert (A := S 0 (PI / 2) ltac:(intros; apply cos_ge_0; lra) ltac:(lra)).
  assert (C := S (3 * (PI / 2)) (2 * PI) ltac:(intros y Y; replace y with (y - 2 * PI + 2 * PI) by ring; rewrite cos_plus, cos_2PI, sin_2PI; ring_simplify; apply cos_ge_0; lra) ltac:(lra)).
  assert (B : is_RInt (fun phi => Rmax 0 (cos phi)) (PI / 2) (3 * (PI / 2)) 0).
  { apply (is_RInt_ext (fun _ => 0)); [intros y Y; rewrite Rmin_left, Rmax_right in Y by lra; symmetry; apply Rmax_left; apply cos_le_0; lra|].
    pose proof (is_RInt_const (V := R_NormedModule) (PI / 2) (3 * (PI / 2)) 0) as Q. unfold scal in Q; cbn in Q; unfold mult in Q; cbn in Q. rewrite Rmult_0_r in Q. exact Q. }
  pose proof (is_RInt_Chasles _ _ _ _ _ _ (is_RInt_Chasles _ _ _ _ _ _ A B) C) as Q. unfold plus in Q; cbn in Q. replace (sin (PI / 2) - sin 0 + 0 + (sin (2 * PI) - sin (3 * (PI / 2)))) with 2 in Q; [exact Q|].
  rewrite sin_0, sin_PI2, sin_2PI, sin_3PI2. ring.
Qed.
Definition kern (c z : R) : R := if Rltb (/ 10 ^ 6) (Rmax z c) then sqrt (1 - z * z) * (z / Rmax z c) else 0.
Lemma kern_int c : 0 < c <= 1 -> exists K, is_RInt (kern c) 0 1 K /\ (PI / 4 - Rmax (/ 10 ^ 6) c <= K <= PI / 4) /\ 0 <= K.
Proof.
  intros Hc. set (m := / 10 ^ 6). assert (M : 0 < m < 1) by (unfold m; lra). set (e := Rmax m c). assert (E : 0 < e <= 1 /\ m <= e /\ c <= e) by (unfold e, Rmax; destruct (Rle_dec m c); lra).
  set (kp := if Rltb m c then / c else 0).
  assert (SI : forall u v, ex_RInt (fun z => sqrt (1 - z * z)) u v) by (intros; apply (ex_RInt_continuous (V := R_CompleteNormedModule)); intros z _; apply (s_continuous z)).
  assert (E1 : ex_RInt (kern c) 0 e).
  { apply (ex_RInt_ext (fun z => sqrt (1 - z * z) * (z * kp))).
    - intros z Z. rewrite Rmin_left, Rmax_right in Z by lra. unfold kern, kp. fold m. destruct (Rltb m c) eqn:L; [apply Rltb_true in L|apply Rltb_false in L].
      + assert (e = c) by (unfold e; apply Rmax_right; lra). rewrite Rmax_right by lra. rewrite (proj2 (Rltb_true _ _)) by auto. reflexivity.
      + assert (e = m) by (unfold e; apply Rmax_left; lra). replace (Rltb m (Rmax z c)) with false; [change (@eq R (sqrt (1 - z * z) * (z * 0)) 0); ring|]. symmetry. apply Rltb_false. unfold Rmax. destruct (Rle_dec z c); lra.
    - apply (ex_RInt_continuous (V := R_CompleteNormedModule)). intros z _. apply (continuous_mult (fun z : R => sqrt (1 - z * z)) (fun z => z * kp)); [apply (s_continuous z)|]. apply (ex_derive_continuous (fun z : R => z * kp)). auto_derive. auto. }
  assert (KE : forall z, e < z < 1 -> sqrt (1 - z * z) = kern c z).
  { intros z Z. unfold kern. fold m. rewrite Rmax_left by lra. rewrite (proj2 (Rltb_true _ _)) by lra. field. lra. }
  assert (E2 : ex_RInt (kern c) e 1) by (apply (ex_RInt_ext (fun z => sqrt (1 - z * z))); [intros z Z; rewrite Rmin_left, Rmax_right in Z by lra; auto|apply SI]).
  assert (EX : ex_RInt (kern c) 0 1) by (apply (ex_RInt_Chasles _ 0 e 1); auto).
  assert (KB : forall z, 0 < z -> 0 <= kern c z <= sqrt (1 - z * z)).
  { intros z Z. unfold kern. pose proof (sqrt_pos (1 - z * z)). destruct (Rltb (/ 10 ^ 6) (Rmax z c)); [|lra]. assert (0 < Rmax z c) by (apply Rlt_le_trans with c; [lra|apply Rmax_r]). assert (0 <= z / Rmax z c <= 1).
    { split; [apply Rmult_le_pos; [lra|left; apply Rinv_0_lt_compat; auto]|]. apply Rmult_le_reg_r with (Rmax z c); auto. unfold Rdiv. rewrite Rmult_assoc, Rinv_l by lra. pose proof (Rmax_l z c). lra. } nra. }
  exists (RInt (kern c) 0 1). split; [apply (RInt_correct (V := R_CompleteNormedModule)); auto|]. split; [|apply RInt_ge_0; [lra|auto|intros z Z; apply KB; lra]]. split.
  - assert (C1 : RInt (kern c) 0 1 = RInt (kern c) 0 e + RInt (kern c) e 1) by (symmetry; apply (RInt_Chasles (V := R_CompleteNormedModule)); auto).
    assert (C2 : PI / 4 = RInt (fun z => sqrt (1 - z * z)) 0 e + RInt (fun z => sqrt (1 - z * z)) e 1).
    { rewrite <- (is_RInt_unique _ _ _ _ quarter_disc). symmetry. apply (RInt_Chasles (V := R_CompleteNormedModule)); apply SI. }
    assert (C3 : RInt (kern c) e 1 = RInt (fun z => sqrt (1 - z * z)) e 1) by (apply RInt_ext; intros z Z; rewrite Rmin_left, Rmax_right in Z by lra; symmetry; auto).
    assert (C4 : 0 <= RInt (kern c) 0 e) by (apply RInt_ge_0; [lra|auto|intros z Z; apply KB; lra]).
    assert (C5 : RInt (fun z => sqrt (1 - z * z)) 0 e <= e).
    { apply (is_RInt_le (fun z => sqrt (1 - z * z)) (fun _ => 1) 0 e); [lra|apply (RInt_correct (V := R_CompleteNormedModule)), SI| |intros z _; apply (s_le_1 z)].
      pose proof (is_RInt_const (V := R_NormedModule) 0 e 1) as Q. unfold scal in Q; cbn in Q; unfold mult in Q; cbn in Q. rewrite Rminus_0_r, Rmult_1_r in Q. exact Q. }
    lra.
  - apply (is_RInt_le (kern c) (fun z => sqrt (1 - z * z)) 0 1); [lra|apply (RInt_correct (V := R_CompleteNormedModule)); auto|apply quarter_disc|intros z Z; apply KB; lra].
Qed.
Definition on_A (r : R) : R := let v := (r * (PI / 2)) * (r * (PI / 2)) in 1 - 5 / 10 * (v / (v + 33 / 100)).
Definition on_B (r : R) : R := let v := (r * (PI / 2)) * (r * (PI / 2)) in 45 / 100 * (v / (v + 9 / 100)).
Lemma on_share t b n p c : orthonormal t b n -> 0 < c <= 1 -> exists K, (PI / 4 - Rmax (/ 10 ^ 6) c <= K <= PI / 4 /\ 0 <= K) /\
  reflectance OrenNayar t b n p c (p_albedo p * (on_A (p_roughness p) + on_B (p_roughness p) * (2 * sqrt (1 - c * c) * K / PI))).
Proof.
  intros HO Hc. pose proof PI_RGT_0 as PP. destruct (kern_int c Hc) as (K & IK & BK). exists K. split; [auto|]. set (A := on_A (p_roughness p)). set (B := on_B (p_roughness p)). set (a := p_albedo p). set (sc := sqrt (1 - c * c)).
  pose (f := fun phi z => a / PI * (A * z + B * Rmax 0 (cos phi) * sc * kern c z)).
  assert (EV : forall phi z, 0 < z < 1 -> f phi z = eval OrenNayar (toward t b n c 0) (toward t b n z phi) n p * z).
  { intros phi z Z. cbn [eval]. rewrite !(toward_n t b n HO), (toward_dot t b n c HO). rewrite !(proj2 (Rleb_false _ _)) by lra. cbn [orb]. change (1 - 5 / 10 * _) with A. change (45 / 100 * _) with B. fold a.
    assert (SZ : 0 < sqrt (1 - z * z)) by (apply sqrt_lt_R0; nra). pose proof (sqrt_pos (1 - c * c)) as SC. fold sc in SC |- *. unfold f, kern. set (sz := sqrt (1 - z * z)) in *.
    replace (sz * sc * cos phi + z * c - z * c) with (sz * sc * cos phi) by ring. assert (MC : 0 < Rmax z c) by (apply Rlt_le_trans with c; [lra|apply Rmax_r]).
    destruct (Rltb (/ 10 ^ 6) (Rmax z c)) eqn:L; cbn [andb].
    - destruct (Rltb 0 (sz * sc * cos phi)) eqn:D; cbn [andb]; [apply Rltb_true in D|apply Rltb_false in D].
      + assert (0 < cos phi) by (apply Rnot_le_lt; intros N; assert (0 <= sz * sc) by (apply Rmult_le_pos; lra); nra). rewrite Rmax_right by lra. field. lra.
      + destruct (Rle_lt_dec (cos phi) 0) as [N|N]; [rewrite Rmax_left by lra; field; lra|]. assert (sc = 0) by (assert (0 < sz * cos phi) by (apply Rmult_lt_0_compat; lra); assert (sz * sc * cos phi = sc * (sz * cos phi)) by ring; nra). rewrite H. field; lra.
    - rewrite andb_false_r. field. lra. }
  assert (FI : forall phi, is_RInt (f phi) 0 1 (a / PI * (A / 2 + B * Rmax 0 (cos phi) * sc * K))).
  { intros phi. unfold f. apply (is_RInt_scal (V := R_NormedModule)). apply (is_RInt_plus (V := R_NormedModule)); [|apply (is_RInt_scal (V := R_NormedModule)); auto].
    pose (F := fun z : R => A * (z * z) / 2). replace (A / 2) with (minus (F 1) (F 0)) by (unfold minus, plus, opp, F; cbn; field). apply (is_RInt_derive F); intros x _; [unfold F; auto_derive; [auto|field]|apply (ex_derive_continuous (fun z : R => A * z)); auto_derive; auto]. }
  assert (FE : forall phi, is_RInt (fun z => eval OrenNayar (toward t b n c 0) (toward t b n z phi) n p * z) 0 1 (a / PI * (A / 2 + B * Rmax 0 (cos phi) * sc * K))).
  { intros phi. apply (is_RInt_ext (f phi)); auto. intros z Z. rewrite Rmin_left, Rmax_right in Z by lra. apply EV; auto. }
  split; [intros phi; eexists; apply FE|].
  apply (is_RInt_ext (fun phi => a / PI * (A / 2 + B * sc * K * Rmax 0 (cos phi)))). { intros phi _. symmetry. apply is_RInt_unique. replace (B * sc * K * Rmax 0 (cos phi)) with (B * Rmax 0 (cos phi) * sc * K) by ring. apply FE. }
  replace (a * (A + B * (2 * sc * K / PI))) with (a / PI * ((2 * PI - 0) * (A / 2) + B * sc * K * 2)) by (field; lra).
  apply (is_RInt_scal (V := R_NormedModule)). apply (is_RInt_plus (V := R_NormedModule)); [apply (is_RInt_const (V := R_NormedModule))|]. apply (is_RInt_scal (V := R_NormedModule)). apply half_cosine.
Qed.
Lemma on_terms r : 0 <= r -> let v := (r * (PI / 2)) * (r * (PI / 2)) in 0 <= v /\ on_A r = 1 - / 2 * (v / (v + 33 / 100)) /\ on_B r = 45 / 100 * (v / (v + 9 / 100)) /\ 0 <= on_B r /\ 0 <= on_A r.
Proof.
  intros R0 v. assert (0 <= v) by (unfold v; apply Rle_0_sqr). assert (P : 0 <= v / (v + 9 / 100)) by (apply Rmult_le_pos; [auto|left; apply Rinv_0_lt_compat; lra]).
  assert (Q : v / (v + 33 / 100) <= 1). { apply Rmult_le_reg_r with (v + 33 / 100); [lra|]. unfold Rdiv. rewrite Rmult_assoc, Rinv_l by lra. lra. }
  split; [auto|]. split; [unfold on_A; fold v; lra|]. split; [reflexivity|]. unfold on_A, on_B. fold v. split; lra.
Qed.
Lemma on_upper t b n p c : orthonormal t b n -> 0 < c <= 1 -> 0 <= p_albedo p -> 0 <= p_roughness p ->
  exists x, reflectance OrenNayar t b n p c x /\ 0 <= x <= p_albedo p * (on_A (p_roughness p) + on_B (p_roughness p) / 2).
Proof.
  intros HO Hc Ha Hr. pose proof PI_RGT_0 as PP. destruct (on_share t b n p c HO Hc) as (K & (BK & K0) & X). eexists. split; [exact X|]. destruct (on_terms _ Hr) as (_ & _ & _ & B0 & A0).
  set (A := on_A _) in *. set (B := on_B _) in *. pose proof (sqrt_pos (1 - c * c)) as S0. pose proof (s_le_1 c) as S1. set (sc := sqrt (1 - c * c)) in *.
  assert (Q : 0 <= 2 * sc * K / PI <= / 2). { split; [repeat apply Rmult_le_pos; try lra; left; apply Rinv_0_lt_compat; auto|]. apply Rmult_le_reg_r with PI; auto. unfold Rdiv. rewrite Rmult_assoc, Rinv_l by lra. nra. }
  set (q := 2 * sc * K / PI) in *. clearbody q. assert (0 <= B * q <= B / 2) by nra. split; [apply Rmult_le_pos; lra|]. apply Rmult_le_compat_l; lra.
Qed.
Lemma frac_le k v e : 0 <= v -> 0 < e -> k * (v / (v + e)) * (v + e) = k * v.
Proof. intros. field. lra. Qed.
(* roughness at least 0.21: never more than the albedo's share; any roughness: at most 1.6 % more *)
Theorem C89_oren_nayar : forall t b n p c, orthonormal t b n -> 0 < c <= 1 -> 0 <= p_albedo p -> 0 <= p_roughness p ->
  exists x, reflectance OrenNayar t b n p c x /\ 0 <= x <= 1016 / 1000 * p_albedo p /\ (21 / 100 <= p_roughness p -> x <= p_albedo p).
Proof.
  intros t b n p c HO Hc Ha Hr. destruct (on_upper t b n p c HO Hc Ha Hr) as (x & X & X0 & X1). exists x. split; [auto|]. destruct (on_terms _ Hr) as (V & EA & EB & _). rewrite EA, EB in X1. set (v := p_roughness p * (PI / 2) * (p_roughness p * (PI / 2))) in *.
  assert (I : forall m, m * ((v + 33 / 100) * (v + 9 / 100)) >= - (/ 2) * v * (v + 9 / 100) + 225 / 1000 * v * (v + 33 / 100) -> 1 - / 2 * (v / (v + 33 / 100)) + 45 / 100 * (v / (v + 9 / 100)) / 2 <= 1 + m).
  { intros m M. apply Rmult_le_reg_r with ((v + 33 / 100) * (v + 9 / 100)); [nra|].
    replace ((1 - / 2 * (v / (v + 33 / 100)) + 45 / 100 * (v / (v + 9 / 100)) / 2) * ((v + 33 / 100) * (v + 9 / 100))) with ((v + 33 / 100) * (v + 9 / 100) - / 2 * v * (v + 9 / 100) + 225 / 1000 * v * (v + 33 / 100)) by (field; lra). nra. }
  split.
  - split; [auto|]. apply Rle_trans with (1 := X1). assert (J : 1 - / 2 * (v / (v + 33 / 100)) + 45 / 100 * (v / (v + 9 / 100)) / 2 <= 1 + 16 / 1000). { apply I. assert (0 <= (v - 4 / 100) * (v - 4 / 100)) by apply Rle_0_sqr. nra. } nra.
  - intros R21. assert (J : 1 - / 2 * (v / (v + 33 / 100)) + 45 / 100 * (v / (v + 9 / 100)) / 2 <= 1 + 0). { apply I. assert (1064 / 10000 <= v). { unfold v. pose proof AiryProps.PI_b. assert (3297 / 10000 <= p_roughness p * (PI / 2)) by nra. nra. } nra. }
    apply Rle_trans with (1 := X1). nra.
Qed.
(* roughness at most 0.2: in grazing views more than the albedo's share; a white surface sends back more than it receives *)
Theorem C89_refuted_oren_nayar : forall t b n p c, orthonormal t b n -> 0 < c <= / 200 -> 0 < p_albedo p -> 0 < p_roughness p <= 2 / 10 ->
  exists x, reflectance OrenNayar t b n p c x /\ p_albedo p < x.
Proof.
  intros t b n p c HO Hc Ha Hr. pose proof AiryProps.PI_b as PB. destruct (on_share t b n p c HO ltac:(lra)) as (K & (BK & K0) & X). eexists. split; [exact X|]. destruct (on_terms _ (Rlt_le _ _ (proj1 Hr))) as (V & EA & EB & B0 & _). rewrite EA, EB in *.
  assert (E : Rmax (/ 10 ^ 6) c <= / 200) by (apply Rmax_lub; lra). assert (KL : PI / 4 - / 200 <= K) by lra.
  assert (SL : 1 - c <= sqrt (1 - c * c)). { rewrite <- (sqrt_square (1 - c)) by lra. apply sqrt_le_1; nra. } set (sc := sqrt (1 - c * c)) in *.
  assert (Q : 494 / 1000 <= 2 * sc * K / PI). { apply Rmult_le_reg_r with PI; [lra|]. replace (2 * sc * K / PI * PI) with (2 * (sc * K)) by (field; lra). assert ((1 - / 200) * (PI / 4 - / 200) <= sc * K) by (apply Rmult_le_compat; lra). nra. }
  set (q := 2 * sc * K / PI) in *. clearbody q. set (v := p_roughness p * (PI / 2) * (p_roughness p * (PI / 2))) in *.
  assert (VB : 0 < v <= 988 / 10000). { unfold v. assert (0 < p_roughness p * (PI / 2) <= 3142 / 10000) by (split; nra). split; nra. }
  assert (J : 1 < 1 - / 2 * (v / (v + 33 / 100)) + 45 / 100 * (v / (v + 9 / 100)) * q).
  { apply Rmult_lt_reg_r with ((v + 33 / 100) * (v + 9 / 100)); [nra|].
    replace ((1 - / 2 * (v / (v + 33 / 100)) + 45 / 100 * (v / (v + 9 / 100)) * q) * ((v + 33 / 100) * (v + 9 / 100))) with ((v + 33 / 100) * (v + 9 / 100) + v * (45 / 100 * q * (v + 33 / 100) - / 2 * (v + 9 / 100))) by (field; lra).
    assert (0 < 45 / 100 * q * (v + 33 / 100) - / 2 * (v + 9 / 100)) by nra. nra. }
  nra.
Qed.
(* the hypotheses can be met *)
Example C89_case : orthonormal (V3 1 0 0) (V3 0 1 0) (V3 0 0 1) /\ (exists x, reflectance OrenNayar (V3 1 0 0) (V3 0 1 0) (V3 0 0 1) (Pa 1 (/ 10) 0) (/ 300) x /\ 1 < x) /\
  exists x, reflectance (Hapke 0 0 0 0) (V3 1 0 0) (V3 0 1 0) (V3 0 0 1) (Pa 1 0 0) 1 x /\ 1 < x.
Proof.
  assert (O : orthonormal (V3 1 0 0) (V3 0 1 0) (V3 0 0 1)) by (unfold orthonormal, unit, dot; cbn; repeat split; ring). split; [auto|]. split.
  - destruct (C89_refuted_oren_nayar _ _ _ (Pa 1 (/ 10) 0) (/ 300) O) as (x & X & L); cbn; try lra. eauto.
  - destruct (C89_refuted_hapke _ _ _ (Pa 1 0 0) 1 0 0 0 O) as (x & X & L & _); cbn; try lra. exists x. split; auto. apply L. rewrite cos_PI3. lra.
Qed.
