(* C53, C82, C83: aberration, conversion of RGB to spectra, photometry helpers. *)
From Coq Require Import Reals List Lra Lia Psatz.
From Verif Require Import Common Vec3 SpectralModel SpectralSpec SpectralProofs SpectralProofs2.
From Coquelicot Require Import Coquelicot.
Import ListNotations.
Open Scope R_scope.

(** C82 *)
Lemma rgb_positive : positive_widths rgb_bins.
Proof. pose proof nano_pos. intros b [<-|[<-|[<-|[]]]]; cbn; lra. Qed.
(* when the layout reaches more than 15 nm into the red band, every bin gets the mean of the RGB step function over it *)
Theorem C82_mean_partial : forall l rgb, l <> [] -> (forall b, In b l -> b_min b < b_max b) ->
  15 * nano < Rmin (b_max (nth (List.length l - 1) l (Bin 0 0))) (750 * nano) - Rmax (b_min (nth 0 l (Bin 0 0))) (600 * nano) ->
  List.length (convert_rgb l rgb) = List.length l /\
  forall i, (i < List.length l)%nat -> mean_of (step_fn rgb_bins rgb) (b_min (nth i l (Bin 0 0))) (b_max (nth i l (Bin 0 0))) (nth i (convert_rgb l rgb) 0).
Proof.
  intros l rgb Hn HP Hov. pose proof nano_pos as HN. unfold convert_rgb. cbv zeta. cbn [nth rgb_bins b_min b_max].
  assert (HC: Rltb (1 / 10) ((Rmin (b_max (nth (List.length l - 1) l (Bin 0 0))) (750 * nano) - Rmax (b_min (nth 0 l (Bin 0 0))) (600 * nano)) / (750 * nano - 600 * nano)) = true).
  { apply Rltb_true. apply (Rmult_lt_reg_r (150 * nano)); [lra|]. unfold Rdiv at 2. replace (750 * nano - 600 * nano) with (150 * nano) by ring.
    rewrite Rmult_assoc, Rinv_l by lra. lra. }
  rewrite HC. rewrite map_length. split; auto. intros i Hi. rewrite (nth_map_any _ 0 (Bin 0 0)) by auto.
  assert (Hb: b_min (nth i l (Bin 0 0)) < b_max (nth i l (Bin 0 0))) by (apply HP, nth_In; auto).
  unfold mean_of, b_width. set (A := integrate_over_band rgb_bins rgb _ _).
  replace (A / (b_max (nth i l (Bin 0 0)) - b_min (nth i l (Bin 0 0))) * (b_max (nth i l (Bin 0 0)) - b_min (nth i l (Bin 0 0)))) with A by (field; lra).
  apply band_int; [exact rgb_positive|lra].
Qed.
Print Assumptions C82_mean_partial.
(* grey stays grey for all bins inside 380-750 nm, whatever the layout *)
Theorem C82_grey : forall l g, (forall b, In b l -> b_min b < b_max b /\ 380 * nano <= b_min b /\ b_max b <= 750 * nano) ->
  convert_rgb l [g; g; g] = map (fun _ => g) l.
Proof.
  intros l g HP. unfold convert_rgb. cbv zeta. destruct (Rltb _ _).
  - apply map_ext_in. intros b Hb. destruct (HP b Hb) as (H1 & H2 & H3). pose proof nano_pos as HN.
    assert (HI: integrate_over_band rgb_bins [g; g; g] (b_min b) (b_max b) = g * b_width b).
    { assert (A: is_RInt (step_fn rgb_bins [g; g; g]) (b_min b) (b_max b) (integrate_over_band rgb_bins [g; g; g] (b_min b) (b_max b))) by (apply band_int; [exact rgb_positive|lra]).
      assert (B: is_RInt (step_fn rgb_bins [g; g; g]) (b_min b) (b_max b) (scal (b_max b - b_min b) g)).
      { apply (is_RInt_ext (fun _ => g)); [|apply (is_RInt_const (V:=R_NormedModule))].
        intros x Hx. rewrite Rmin_left, Rmax_right in Hx by lra. cbn [step_fn rgb_bins b_min b_max].
        repeat destruct (Rle_dec _ x); repeat destruct (Rlt_dec x _); try (exfalso; lra);
        match goal with |- ?a = ?b => assert (E: (a : R) = b) by ring; exact E end. }
      pose proof (is_RInt_unique _ _ _ _ A) as UA. pose proof (is_RInt_unique _ _ _ _ B) as UB'. rewrite UA in UB'. rewrite UB'. unfold scal; cbn. unfold mult; cbn. unfold b_width. ring. }
    rewrite HI. unfold b_width. field. lra.
  - apply map_ext_in. intros b Hb. cbn [nth]. field.
Qed.
Print Assumptions C82_grey.
(* refuted: the overlap test uses the red band only, and the last bin as the upper end. A layout that covers 400-560 nm, and one that covers
   400-700 nm in descending order, both turn pure red into grey *)
Theorem C82_refuted_mean :
  (let l := Bin (400 * nano) (560 * nano) :: nil in
   init_bins 1 [400; 560] = Ok l /\ convert_rgb l [1; 0; 0] = 1 / 3 :: nil /\ mean_of (step_fn rgb_bins [1; 0; 0]) (400 * nano) (560 * nano) 0) /\
  (let l := [Bin (600 * nano) (700 * nano); Bin (400 * nano) (600 * nano)] in
   init_bins 2 [600; 700; 400; 600] = Ok l /\ convert_rgb l [1; 0; 0] = [1 / 3; 1 / 3] /\ mean_of (step_fn rgb_bins [1; 0; 0]) (600 * nano) (700 * nano) 1).
Proof.
  pose proof nano_pos as HN.
  assert (M: forall lo hi A, lo <= hi -> integrate_over_band rgb_bins [1; 0; 0] lo hi = A -> is_RInt (step_fn rgb_bins [1; 0; 0]) lo hi A).
  { intros lo hi A H <-. apply band_int; [exact rgb_positive|auto]. }
  split; cbv zeta; (split; [|split]).
  - assert (init_bins 1 [400; 560] = check_bins (init_uniform 1 400 560)) as -> by reflexivity.
    rewrite (proj2 (uniform_ok 1 400 560 ltac:(lia)) ltac:(lra)). unfold init_uniform. cbn. do 2 f_equal. f_equal; field.
  - unfold convert_rgb. cbn [nth List.length Nat.sub b_min b_max rgb_bins map].
    rewrite (proj2 (Rltb_false _ _)); [f_equal; field|].
    rewrite Rmin_left, Rmax_right by lra. apply (Rmult_le_reg_r (150 * nano)); [lra|]. replace ((560 * nano - 600 * nano) / (750 * nano - 600 * nano) * (150 * nano)) with (- 40 * nano) by (field; lra). lra.
  - unfold mean_of. apply M; [lra|]. unfold integrate_over_band. cbn [combine rgb_bins fold_left fst snd b_min b_max].
    repeat match goal with |- context [Rleb ?a ?b] => let E := fresh in destruct (Rleb a b) eqn:E; rb; try lra end; cbn [orb]; ring.
  - assert (init_bins 2 [600; 700; 400; 600] = check_bins (init_pairs 2 [600; 700; 400; 600])) as -> by reflexivity.
    assert (HI: init_pairs 2 [600; 700; 400; 600] = [Bin (600 * nano) (700 * nano); Bin (400 * nano) (600 * nano)]) by reflexivity. rewrite HI.
    apply check_bins_ok. split.
    + intros b [<-|[<-|[]]]; cbn; lra.
    + intros [|[|i]] [|[|j]] x; cbn [List.length nth]; intros; unfold inside in *; cbn [b_min b_max] in *; try lia; lra.
  - unfold convert_rgb. cbn [nth List.length Nat.sub b_min b_max rgb_bins map].
    rewrite (proj2 (Rltb_false _ _)); [f_equal; [field|f_equal; field]|].
    rewrite Rmin_left, Rmax_left by lra. replace ((600 * nano - 600 * nano) / (750 * nano - 600 * nano)) with 0 by (field; lra). lra.
  - unfold mean_of. apply M; [lra|]. unfold integrate_over_band. cbn [combine rgb_bins fold_left fst snd b_min b_max].
    repeat match goal with |- context [Rleb ?a ?b] => let E := fresh in destruct (Rleb a b) eqn:E; rb; try lra end; cbn [orb]; unfold Rmin, Rmax; repeat destruct (Rle_dec _ _); lra.
Qed.
Print Assumptions C82_refuted_mean.
Example C82_case : exists l, init_bins 8 [380; 750] = Ok l /\ 15 * nano < Rmin (b_max (nth (8 - 1) l (Bin 0 0))) (750 * nano) - Rmax (b_min (nth 0 l (Bin 0 0))) (600 * nano).
Proof.
  pose proof nano_pos as HN. exists (init_uniform 8 380 750). split.
  - change (init_bins 8 [380; 750]) with (check_bins (init_uniform 8 380 750)). apply uniform_ok; [lia|lra].
  - rewrite !uniform_nth by lia. cbn [b_min b_max]. replace (8 - 1 + 1)%nat with 8%nat by lia.
    replace (380 * nano + INR 8 * ((750 * nano - 380 * nano) / INR 8)) with (750 * nano) by (cbn [INR]; field). cbn [INR].
    rewrite Rmin_left by lra. rewrite Rmax_right by lra. lra.
Qed.

(** C83 *)
Theorem C83_linspace : forall lo hi n, (2 <= n)%nat -> exists l, linspace lo hi n = map Some l /\ List.length l = n /\ nth 0 l 0 = lo /\ nth (n - 1) l 0 = hi /\
  forall i, (S i < n)%nat -> nth (S i) l 0 - nth i l 0 = (hi - lo) / INR (n - 1).
Proof.
  intros lo hi n Hn. exists (lin_real lo hi n). split; [apply linspace_some; lia|]. split; [apply lin_real_length|].
  assert (0 < INR (n - 1)) by (apply lt_0_INR; lia).
  split; [rewrite lin_real_nth by lia; cbn [INR]; ring|]. split; [rewrite lin_real_nth by lia; field; lra|].
  intros i Hi. rewrite !lin_real_nth by lia. rewrite S_INR. ring.
Qed.
Print Assumptions C83_linspace.
(* the trapezoid rule is exact for straight lines, on any grid *)
Theorem C83_trapezoid_exact : forall x m c, x <> [] -> integrate x (map (fun t => m * t + c) x) =
  Ok (RInt (fun t => m * t + c) (nth 0 x 0) (nth (List.length x - 1) x 0)).
Proof.
  intros x m c Hx.
  assert (HI: forall a b, RInt (fun t => m * t + c) a b = m * (b ^ 2 - a ^ 2) / 2 + c * (b - a)).
  { intros a b. apply is_RInt_unique.
    replace (m * (b ^ 2 - a ^ 2) / 2 + c * (b - a)) with (minus (m * b ^ 2 / 2 + c * b) (m * a ^ 2 / 2 + c * a)) by (unfold minus, plus, opp; cbn; field).
    apply (is_RInt_derive (fun x => m * x ^ 2 / 2 + c * x)).
    - intros y _. auto_derive; auto. field.
    - intros y _. apply (ex_derive_continuous (fun x => m * x + c)). auto_derive; auto. }
  rewrite HI. unfold integrate. rewrite map_length. destruct (Nat.eqb_spec (List.length x) 0) as [E|E]; [apply length_zero_iff_nil in E; congruence|].
  destruct (Nat.eqb_spec (List.length x) 1) as [E1|E1].
  - rewrite E1. replace (1 - 1)%nat with 0%nat by lia. apply f_equal. field.
  - rewrite Nat.ltb_irrefl. apply f_equal. apply trapezoid_affine. auto.
Qed.
Print Assumptions C83_trapezoid_exact.
Theorem C83_planck : forall t t' lam, 0 < t -> t < t' -> 0 < lam -> 0 < planck t lam < planck t' lam /\ 0 < photon_energy lam /\ photon_energy (2 * lam) = photon_energy lam / 2.
Proof.
  intros t t' lam Ht Htt Hl. split; [split; [apply planck_pos; auto|apply planck_increasing; auto]|].
  destruct consts_pos as (H1 & H2 & H3). unfold photon_energy. split; [apply Rdiv_lt_0_compat; auto; apply Rmult_lt_0_compat; auto|]. field. lra.
Qed.
Print Assumptions C83_planck.
(* black_body with at least two samples per bin is positive; one sample gives 0, none is undefined behaviour *)
Theorem C83_black_body : forall t b, 0 < t -> 0 < b_min b -> b_min b < b_max b ->
  (forall n, (2 <= n)%nat -> exists r, black_body_bin t b n = Ok r /\ 0 < r) /\ black_body_bin t b 1 = Ok 0 /\ black_body_bin t b 0 = UB.
Proof.
  intros t b Ht H0 Hb. split; [intros n Hn; apply black_body_positive; auto|]. split; reflexivity.
Qed.
Print Assumptions C83_black_body.
(* Pogson's law: five magnitudes are a factor of 100; brighter means smaller *)
Theorem C83_magnitudes : forall m, v_band_irradiance (m + 5) = v_band_irradiance m / 100 /\ 0 < v_band_irradiance m /\ v_band_irradiance 0 = 875 * 10 ^ 7 /\
  forall m', m < m' -> v_band_irradiance m' < v_band_irradiance m.
Proof.
  assert (L10: 0 < ln 10) by (rewrite <- ln_1; apply ln_increasing; lra).
  intros m. unfold v_band_irradiance. split; [|split; [|split]].
  - replace (- (4 / 10) * (m + 5)) with (- (4 / 10) * m + (- (2))) by field. rewrite Rpower_plus.
    replace (Rpower 10 (- (2))) with (/ 100); [field|]. rewrite Rpower_Ropp. replace 2 with (INR 2) by reflexivity. rewrite Rpower_pow by lra. f_equal. cbn. ring.
  - apply Rmult_lt_0_compat; [|apply exp_pos]. apply Rmult_lt_0_compat; [lra|apply pow_lt; lra].
  - rewrite Rmult_0_r. unfold Rpower. rewrite Rmult_0_l, exp_0. ring.
  - intros m' Hm. apply Rmult_lt_compat_l; [apply Rmult_lt_0_compat; [lra|apply pow_lt; lra]|]. apply exp_increasing. nra.
Qed.
Print Assumptions C83_magnitudes.
Example C83_case : black_body_bin 5778 (Bin (400 * nano) (500 * nano)) 1 = Ok 0.
Proof. reflexivity. Qed.

(** C53 *)
(* the Lorentz transformation of a direction towards an object, for observer velocity beta (in units of c) *)
Definition lorentz_direction (u beta : vec3) : vec3 :=
  let g := 1 / sqrt (1 - dot beta beta) in let k := dot u beta in
  vscale (/ (1 + k)) (vadd (vscale (/ g) u) (vscale (1 + g / (1 + g) * k) beta)).
(* it is a unit vector and obeys the aberration law cos' = (cos + beta) / (1 + beta cos) *)
Theorem C53_lorentz_spec : forall u beta, dot u u = 1 -> dot beta beta < 1 ->
  dot (lorentz_direction u beta) (lorentz_direction u beta) = 1 /\ dot (lorentz_direction u beta) beta * (1 + dot u beta) = dot u beta + dot beta beta.
Proof.
  intros u beta Hu Hb. pose proof (cauchy_dot u beta Hu) as HC. pose proof (dot_self_nonneg beta) as HB.
  destruct (gamma_facts _ HB Hb) as (G1 & G2 & _ & _). unfold lorentz_direction. cbv zeta. set (g := 1 / sqrt (1 - dot beta beta)) in *.
  set (k := dot u beta) in *. set (b := dot beta beta) in *. assert (Hk: -1 < k) by nra.
  assert (Hbg: b = 1 - / (g * g)) by (apply (Rmult_eq_reg_r (g * g)); [field_simplify; nra|nra]).
  assert (E1: dot (vadd (vscale (/ g) u) (vscale (1 + g / (1 + g) * k) beta)) (vadd (vscale (/ g) u) (vscale (1 + g / (1 + g) * k) beta)) = (1 + k) ^ 2).
  { transitivity ((/ g) ^ 2 * dot u u + 2 * / g * (1 + g / (1 + g) * k) * k + (1 + g / (1 + g) * k) ^ 2 * b); [unfold k, b, dot, vadd, vscale; cbn; ring|].
    rewrite Hu, Hbg. field. lra. }
  split.
  - transitivity ((/ (1 + k)) ^ 2 * dot (vadd (vscale (/ g) u) (vscale (1 + g / (1 + g) * k) beta)) (vadd (vscale (/ g) u) (vscale (1 + g / (1 + g) * k) beta))); [unfold dot, vscale; cbn; ring|].
    rewrite E1. field. lra.
  - transitivity ((/ g * k + (1 + g / (1 + g) * k) * b) * (/ (1 + k) * (1 + k))); [unfold k, b, dot, vadd, vscale; cbn; ring|].
    rewrite Rinv_l by lra. rewrite Hbg. field. lra.
Qed.
Print Assumptions C53_lorentz_spec.
Lemma aberrated_ok u v : dot (beta_of v) (beta_of v) < 999999 / 1000000 ->
  aberrated u v = Ok (let g := 1 / sqrt (1 - dot (beta_of v) (beta_of v)) in let k := dot u (beta_of v) in
    vscale (/ (g * (1 + k))) (vadd u (vscale (1 + g / (1 + g) * k) (beta_of v)))).
Proof.
  intros H. unfold aberrated. fold (beta_of v). cbv zeta. rewrite (proj2 (Rltb_true _ _) H). f_equal. f_equal.
  apply v3_eq; cbn; ring.
Qed.
(* refuted: for every moving observer there is a direction whose apparent direction is not a unit vector and does not follow the aberration law *)
Theorem C53_refuted_unit : forall v, dot (beta_of v) (beta_of v) < 999999 / 1000000 -> v <> vzero ->
  exists u r, dot u u = 1 /\ aberrated u v = Ok r /\ dot r r < 1 /\ dot r (beta_of v) * (1 + dot u (beta_of v)) <> dot u (beta_of v) + dot (beta_of v) (beta_of v).
Proof.
  intros v Hb Hv. destruct (exists_perp (beta_of v)) as (u & Hu & Hp). exists u. eexists. split; auto. split; [apply aberrated_ok; auto|].
  pose proof (dot_self_nonneg (beta_of v)) as HB.
  assert (Hpos: 0 < dot (beta_of v) (beta_of v)).
  { destruct (Req_dec (dot (beta_of v) (beta_of v)) 0) as [E|]; [|lra]. exfalso. apply Hv.
    assert (HS: 0 < / SPEED_OF_LIGHT) by (apply Rinv_0_lt_compat; unfold SPEED_OF_LIGHT; lra).
    unfold beta_of, dot, vscale in E; cbn in E. set (s := / SPEED_OF_LIGHT) in *.
    assert (HZ: forall a, s * a = 0 -> a = 0) by (intros a Ha; apply Rmult_integral in Ha as [Ha|Ha]; lra).
    assert (HX: forall a, a * a <= 0 -> a = 0) by (intros a Ha; nra).
    pose proof (Rle_0_sqr (s * vx v)) as Q1. pose proof (Rle_0_sqr (s * vy v)) as Q2. pose proof (Rle_0_sqr (s * vz v)) as Q3. unfold Rsqr in *.
    apply v3_eq; cbn; apply HZ, HX; lra. }
  destruct (gamma_facts _ HB ltac:(lra)) as (G1 & G2 & G3 & G4). cbv zeta. set (g := 1 / sqrt (1 - dot (beta_of v) (beta_of v))) in *. rewrite Hp.
  set (b := dot (beta_of v) (beta_of v)) in *.
  assert (E: forall a, dot (vscale a (vadd u (vscale (1 + g / (1 + g) * 0) (beta_of v)))) (vscale a (vadd u (vscale (1 + g / (1 + g) * 0) (beta_of v)))) = a ^ 2 * (1 + b)).
  { intros a. transitivity (a ^ 2 * (dot u u + 2 * dot u (beta_of v) + b)); [|rewrite Hu, Hp; ring]. unfold b, dot, vadd, vscale; cbn. ring. }
  rewrite E. split.
  - replace ((/ (g * (1 + 0))) ^ 2) with (1 - b); [nra|]. apply (Rmult_eq_reg_r (g * g)); [|nra]. field_simplify; nra.
  - replace (dot (vscale (/ (g * (1 + 0))) (vadd u (vscale (1 + g / (1 + g) * 0) (beta_of v)))) (beta_of v)) with (/ g * (dot u (beta_of v) + b)).
    2:{ transitivity (/ (g * (1 + 0)) * (dot u (beta_of v) + b)); [f_equal; f_equal; ring|]. unfold b, dot, vadd, vscale; cbn. ring. }
    rewrite Hp. assert (/ g <> 1); [|nra]. intros Hg. assert (g = 1) by (rewrite <- (Rinv_inv g), Hg; field). nra.
Qed.
Print Assumptions C53_refuted_unit.
(* what holds: no change at rest; too fast observers throw; the error against the Lorentz formula is at most beta^3 / (1 - beta) *)
Theorem C53_small_error_partial : forall u v, dot u u = 1 ->
  (aberrated u v = Throws <-> 999999 / 1000000 <= dot (beta_of v) (beta_of v)) /\
  (v = vzero -> aberrated u v = Ok u) /\
  forall r, aberrated u v = Ok r ->
    let d := vsub (lorentz_direction u (beta_of v)) r in let b := dot (beta_of v) (beta_of v) in dot d d * (1 - sqrt b) ^ 2 <= b ^ 3.
Proof.
  intros u v Hu. split; [|split].
  - unfold aberrated. fold (beta_of v). cbv zeta. destruct (Rltb _ _) eqn:E; rb; split; intros; try discriminate; auto; lra.
  - intros ->. rewrite aberrated_ok.
    + f_equal. cbv zeta. replace (beta_of vzero) with vzero by (apply v3_eq; cbn; ring).
      replace (dot vzero vzero) with 0 by (unfold dot; cbn; ring). replace (dot u vzero) with 0 by (unfold dot; cbn; ring).
      rewrite Rminus_0_r, sqrt_1. apply v3_eq; cbn; field.
    + replace (beta_of vzero) with vzero by (apply v3_eq; cbn; ring). unfold dot; cbn. lra.
  - intros r Hr. cbv zeta. destruct (Rlt_dec (dot (beta_of v) (beta_of v)) (999999 / 1000000)) as [Hb|Hb].
    2:{ unfold aberrated in Hr. fold (beta_of v) in Hr. cbv zeta in Hr. rewrite (proj2 (Rltb_false _ _)) in Hr by lra. discriminate. }
    rewrite aberrated_ok in Hr by auto. injection Hr as <-.
    set (be := beta_of v) in *. pose proof (dot_self_nonneg be) as HB. pose proof (cauchy_dot u be Hu) as HC.
    destruct (gamma_facts _ HB ltac:(lra)) as (G1 & G2 & G3 & G4). unfold lorentz_direction. cbv zeta. set (g := 1 / sqrt (1 - dot be be)) in *.
    set (k := dot u be) in *. set (b := dot be be) in *.
    assert (HS: 0 <= sqrt b) by apply sqrt_pos. assert (HQ: sqrt b * sqrt b = b) by (apply sqrt_sqrt; auto).
    assert (Hs1: sqrt b < 1) by (destruct (Rlt_dec (sqrt b) 1); [auto|nra]).
    assert (HC': k * k <= sqrt b * sqrt b) by (rewrite HQ; lra).
    assert (Hk: - sqrt b <= k) by (clear - HC' HS; set (x := sqrt b) in *; nra). assert (Hk2: k <= sqrt b) by (clear - HC' HS; set (x := sqrt b) in *; nra).
    set (a := g / (1 + g)).
    assert (Ha: / 2 <= a /\ a <= 1).
    { unfold a. split; [apply (Rmult_le_reg_r (1 + g)); [lra|]; unfold Rdiv; rewrite Rmult_assoc, Rinv_l by lra; lra|apply (Rmult_le_reg_r (1 + g)); [lra|]; unfold Rdiv; rewrite Rmult_assoc, Rinv_l by lra; lra]. }
    set (q := (1 + a * k) * (1 - / g) * / (1 + k)).
    match goal with |- dot ?d ?d * _ <= _ => assert (ED: d = vscale q be) end.
    { unfold q. apply v3_eq; cbn; field; repeat split; solve [lra | unfold SPEED_OF_LIGHT; lra]. }
    rewrite ED. replace (dot (vscale q be) (vscale q be)) with (q ^ 2 * b) by (unfold b, dot, vscale; cbn; ring).
    assert (Hq: 0 <= q /\ q * (1 - sqrt b) <= b).
    { assert (H0: 0 < / (1 + k)) by (apply Rinv_0_lt_compat; lra).
      assert (H1: 0 <= 1 + a * k) by nra.
      assert (H2: (1 + a * k) * (1 - sqrt b) <= 1 + k).
      { assert (HX: (1 + a * k) * (1 - sqrt b) <= (1 + a * k) * 1) by (apply Rmult_le_compat_l; lra).
        destruct (Rle_dec 0 k).
        - assert (a * k <= 1 * k) by (apply Rmult_le_compat_r; lra). lra.
        - assert (a * k <= 0) by nra. assert ((1 + a * k) * (1 - sqrt b) <= 1 * (1 - sqrt b)) by (apply Rmult_le_compat_r; lra). lra. }
      assert (H3: (1 + a * k) * / (1 + k) * (1 - sqrt b) <= 1).
      { replace ((1 + a * k) * / (1 + k) * (1 - sqrt b)) with ((1 + a * k) * (1 - sqrt b) * / (1 + k)) by ring.
        apply (Rmult_le_reg_r (1 + k)); [lra|]. rewrite Rmult_assoc, Rinv_l by lra. lra. }
      split.
      - unfold q. apply Rmult_le_pos; [|lra]. apply Rmult_le_pos; lra.
      - unfold q. replace ((1 + a * k) * (1 - / g) * / (1 + k) * (1 - sqrt b)) with ((1 - / g) * ((1 + a * k) * / (1 + k) * (1 - sqrt b))) by ring.
        assert (0 <= (1 + a * k) * / (1 + k) * (1 - sqrt b)) by (repeat apply Rmult_le_pos; lra). nra. }
    destruct Hq as [Hq0 Hq1].
    replace (q ^ 2 * b * (1 - sqrt b) ^ 2) with ((q * (1 - sqrt b)) ^ 2 * b) by ring. replace (b ^ 3) with (b ^ 2 * b) by ring.
    apply Rmult_le_compat_r; auto. assert (0 <= q * (1 - sqrt b)) by (apply Rmult_le_pos; lra). nra.
Qed.
Print Assumptions C53_small_error_partial.
(* the apparent direction is turned towards the velocity: its cosine with the velocity does not decrease *)
Theorem C53_towards_velocity : forall u v r, dot u u = 1 -> aberrated u v = Ok r -> dot u v * vlen r <= dot r v.
Proof.
  intros u v r Hu Hr. destruct (Rlt_dec (dot (beta_of v) (beta_of v)) (999999 / 1000000)) as [Hb|Hb].
  2:{ unfold aberrated in Hr. fold (beta_of v) in Hr. cbv zeta in Hr. rewrite (proj2 (Rltb_false _ _)) in Hr by lra. discriminate. }
  rewrite aberrated_ok in Hr by auto. injection Hr as <-. cbv zeta.
  assert (HC0: 0 < SPEED_OF_LIGHT) by (unfold SPEED_OF_LIGHT; lra).
  assert (HV: forall x, dot x v = SPEED_OF_LIGHT * dot x (beta_of v)) by (intros x; unfold dot, beta_of, vscale; cbn; field; lra).
  rewrite !HV. set (be := beta_of v) in *. pose proof (dot_self_nonneg be) as HB. pose proof (cauchy_dot u be Hu) as HC.
  destruct (gamma_facts _ HB ltac:(lra)) as (G1 & G2 & G3 & G4). set (g := 1 / sqrt (1 - dot be be)) in *.
  set (k := dot u be) in *. set (b := dot be be) in *.
  assert (Hk: -1 < k) by nra. set (a := g / (1 + g)).
  assert (Ha: 0 <= a /\ a <= 1).
  { unfold a. split; [apply Rlt_le, Rdiv_lt_0_compat; lra|apply (Rmult_le_reg_r (1 + g)); [lra|]; unfold Rdiv; rewrite Rmult_assoc, Rinv_l by lra; lra]. }
  set (s := 1 + a * k). assert (Hs: 0 < s) by (unfold s; nra).
  set (D := / (g * (1 + k))). assert (HD: 0 < D) by (unfold D; apply Rinv_0_lt_compat; nra).
  assert (EL: vlen (vscale D (vadd u (vscale s be))) = D * sqrt (1 + 2 * s * k + s ^ 2 * b)).
  { unfold vlen. replace (dot (vscale D (vadd u (vscale s be))) (vscale D (vadd u (vscale s be)))) with ((D * D) * (1 + 2 * s * k + s ^ 2 * b)).
    - rewrite sqrt_mult_alt by nra. rewrite sqrt_square by lra. reflexivity.
    - rewrite <- Hu. unfold k, b, dot, vscale, vadd; cbn. ring. }
  rewrite EL. replace (dot (vscale D (vadd u (vscale s be))) be) with (D * (k + s * b)) by (unfold k, b, dot, vscale, vadd; cbn; ring).
  assert (HN: 0 <= 1 + 2 * s * k + s ^ 2 * b).
  { replace (1 + 2 * s * k + s ^ 2 * b) with (dot (vadd u (vscale s be)) (vadd u (vscale s be))) by (rewrite <- Hu; unfold k, b, dot, vscale, vadd; cbn; ring). apply dot_self_nonneg. }
  assert (HX: (k + s * b) ^ 2 - k ^ 2 * (1 + 2 * s * k + s ^ 2 * b) = s * (b - k ^ 2) * (2 * k + s * b)) by ring.
  pose proof (sqrt_pos (1 + 2 * s * k + s ^ 2 * b)) as HQ0. pose proof (sqrt_sqrt _ HN) as HQ1.
  set (Q := sqrt (1 + 2 * s * k + s ^ 2 * b)) in *. rewrite <- HQ1 in HX.
  assert (HM: k * Q <= k + s * b).
  { destruct (Rle_dec 0 (k + s * b)) as [H0|H0].
    - destruct (Rle_dec k 0) as [H1|H1]; [nra|].
      assert (0 <= s * (b - k ^ 2) * (2 * k + s * b)) by (repeat apply Rmult_le_pos; nra).
      destruct (Rle_dec (k * Q) (k + s * b)) as [|Hn]; auto. exfalso. assert (0 <= k * Q) by (apply Rmult_le_pos; lra). nra.
    - assert (0 <= s * (b - k ^ 2) * (- (2 * k + s * b))) by (repeat apply Rmult_le_pos; nra).
      destruct (Rle_dec (k * Q) (k + s * b)) as [|Hn]; auto. exfalso. assert (0 < - (k + s * b)) by lra. assert (0 <= - k * Q) by (apply Rmult_le_pos; nra). nra. }
  replace (SPEED_OF_LIGHT * k * (D * Q)) with ((SPEED_OF_LIGHT * D) * (k * Q)) by ring.
  replace (SPEED_OF_LIGHT * (D * (k + s * b))) with ((SPEED_OF_LIGHT * D) * (k + s * b)) by ring.
  apply Rmult_le_compat_l; [apply Rmult_le_pos; lra|exact HM].
Qed.
Print Assumptions C53_towards_velocity.
Example C53_case : let v := V3 30000 0 0 in v <> vzero /\ dot (beta_of v) (beta_of v) < 999999 / 1000000 /\ dot (V3 0 1 0) (V3 0 1 0) = 1.
Proof.
  cbv zeta. split; [intros H; injection H; lra|]. split; [|unfold dot; cbn; ring]. unfold dot, beta_of, vscale, SPEED_OF_LIGHT; cbn. lra.
Qed.
