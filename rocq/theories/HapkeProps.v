(* C116: the Hapke BSDF is Hapke's photometric model. The specification is the published formula in the phase angle. *)
From Verif Require Import Common Vec3 LightModel BsdfModel BsdfProps.
From Coquelicot Require Import Coquelicot.
From Coq Require Import Reals Lra.
Open Scope R_scope.

(** Specification *)
(* the Henyey-Greenstein function of asymmetry g at the cosine x of the angle from its lobe *)
Definition henyey_greenstein (g x : R) : R := (1 - g ^ 2) / sqrt (1 + g ^ 2 - 2 * g * x) ^ 3.
(* two lobes of asymmetry b: a fraction c of the scattered light in the backward lobe (towards the source: phase angle 0) and 1 - c in the forward lobe *)
Definition particle_phase (b c alpha : R) : R := c * henyey_greenstein b (cos alpha) + (1 - c) * henyey_greenstein b (- cos alpha).
(* shadow hiding: amplitude B0, and half of it where tan (alpha / 2) = h *)
Definition surge (h B0 alpha : R) : R := B0 / (1 + tan (alpha / 2) / h).
(* Hapke's approximation of Chandrasekhar's H function *)
Definition chandrasekhar (w mu : R) : R := (1 + 2 * mu) / (1 + 2 * mu * sqrt (1 - w)).
(* bidirectional reflectance distribution function: incidence cosine mu0, emission cosine mu, phase angle alpha *)
Definition hapke_brdf (w h B0 b c mu0 mu alpha : R) : R :=
  w / (4 * PI) * / (mu0 + mu) * (particle_phase b c alpha * (1 + surge h B0 alpha) + chandrasekhar w mu0 * chandrasekhar w mu - 1).

(** Proofs *)
Lemma denom_pos g x : -1 < g < 1 -> -1 <= x <= 1 -> 0 < 1 + g * g - 2 * g * x.
Proof. intros G X. destruct (Rle_dec 0 g); [assert (g * x <= g * 1) by (apply Rmult_le_compat_l; lra)|assert (- g * - x <= - g * 1) by (apply Rmult_le_compat_l; lra)]; nra. Qed.
Lemma cpow_three_halves x : 0 < x -> cpow x (3 / 2) = sqrt x ^ 3.
Proof.
  intros H. unfold cpow. destruct (Req_EM_T x 0); [lra|]. assert (S : 0 < sqrt x) by (apply sqrt_lt_R0; auto). rewrite <- (Rpower_pow 3 (sqrt x) S). rewrite <- (Rpower_sqrt x H), Rpower_mult. f_equal. cbn. lra.
Qed.
Lemma hg_spec g x : -1 < g < 1 -> -1 <= x <= 1 -> hg g x = henyey_greenstein g x.
Proof.
  intros G X. unfold hg, henyey_greenstein. cbv zeta. rewrite cpow_three_halves by (apply denom_pos; auto). replace (g ^ 2) with (g * g) by ring. reflexivity.
Qed.
Lemma hg_neg g x : henyey_greenstein (- g) x = henyey_greenstein g (- x).
Proof. unfold henyey_greenstein. replace ((- g) ^ 2) with (g ^ 2) by ring. do 3 f_equal. ring. Qed.
(* the BSDF returns the formula for every pair of unit directions above the surface *)
Theorem C116_formula : forall h B0 b c wo wi n p alpha, 0 < h -> -1 < b < 1 -> 0 <= alpha <= PI -> dot wi wo = cos alpha -> 0 < dot wi n -> 0 < dot wo n ->
  eval (Hapke h B0 b c) wo wi n p = hapke_brdf (p_albedo p) h B0 b c (dot wi n) (dot wo n) alpha.
Proof.
  intros h B0 b c wo wi n p alpha H B A E I O. unfold eval. rewrite (proj2 (Rleb_false _ _) I), (proj2 (Rleb_false _ _) O). cbn [orb]. unfold cos_alpha_of, clamp. rewrite E.
  pose proof (COS_bound alpha) as CB. rewrite (proj2 (Rltb_false _ _)) by lra. rewrite (proj2 (Rltb_false _ _)) by lra. rewrite acos_cos by lra.
  unfold hapke_brdf, particle_phase, surge, opposition_effect, phase_function_dhg, h_function, chandrasekhar. cbv zeta. rewrite (proj2 (Rleb_false _ _) H). rewrite !hg_spec, hg_neg by lra. replace (alpha * (5 / 10)) with (alpha / 2) by field.
  rewrite !(Rmult_comm (sqrt _)). pose proof PI_RGT_0. set (P1 := henyey_greenstein _ _). set (P2 := henyey_greenstein _ _). set (S := B0 / _). set (H1 := (1 + 2 * dot wi n) / _). set (H2 := (1 + 2 * dot wo n) / _).
  clearbody P1 P2 S H1 H2. field. lra.
Qed.
(* the lobes are normalised: the mean of the phase function over all directions is 1, whatever b and c; and its mean cosine of the phase angle is b (2 c - 1):
   c = 1 scatters backward and c = 0 forward *)
Definition mean (f : R -> R) (m : R) : Prop := is_RInt f (-1) 1 (2 * m).
Ltac ad := unfold Rminus in *; cbn [pow] in *; repeat match goal with |- _ /\ _ => split end; try exact I; try lra.
Lemma hg_mean g : -1 < g < 1 -> mean (henyey_greenstein g) 1 /\ mean (fun x => x * henyey_greenstein g x) g.
Proof.
  intros G. assert (D : forall x, -1 <= x <= 1 -> 0 < 1 + g ^ 2 - 2 * g * x) by (intros x X; replace (g ^ 2) with (g * g) by ring; apply denom_pos; auto).
  destruct (Req_EM_T g 0) as [->|N].
  - assert (E : forall x, henyey_greenstein 0 x = 1). { intros x. unfold henyey_greenstein. replace (1 + 0 ^ 2 - 2 * 0 * x) with 1 by ring. rewrite sqrt_1. field. }
    split; unfold mean.
    + apply (is_RInt_ext (fun _ => 1)); [intros; symmetry; apply E|]. replace (2 * 1) with (scal (1 - -1) 1) by (unfold scal; cbn; unfold mult; cbn; ring). apply (is_RInt_const (V:=R_NormedModule)).
    + apply (is_RInt_ext (fun x => x)); [intros x _; change (x = x * henyey_greenstein 0 x); rewrite E; ring|]. replace (2 * 0) with (minus ((fun x => x ^ 2 / 2) 1) ((fun x => x ^ 2 / 2) (-1))) by (unfold minus, plus, opp; cbn; field).
      apply (is_RInt_derive (fun x => x ^ 2 / 2)); intros x _; [auto_derive; auto; field|apply continuous_id].
  - assert (S1 : sqrt (1 + g ^ 2 - 2 * g * 1) = 1 - g). { replace (1 + g ^ 2 - 2 * g * 1) with ((1 - g) * (1 - g)) by ring. apply sqrt_square. lra. }
    assert (S2 : sqrt (1 + g ^ 2 - 2 * g * -1) = 1 + g). { replace (1 + g ^ 2 - 2 * g * -1) with ((1 + g) * (1 + g)) by ring. apply sqrt_square. lra. }
    assert (CT : forall x, -1 <= x <= 1 -> ex_derive (henyey_greenstein g) x).
    { intros x X. pose proof (D x X) as P. unfold henyey_greenstein. auto_derive. split; [exact P|]. split; [|auto]. assert (0 < sqrt (1 + g ^ 2 - 2 * g * x)) by (apply sqrt_lt_R0; auto). unfold Rminus in *. match goal with |- ?a <> 0 => assert (0 < a); [|lra] end.
      repeat apply Rmult_lt_0_compat; try lra; auto. }
    split; unfold mean.
    + set (F := fun x => (1 - g ^ 2) / g / sqrt (1 + g ^ 2 - 2 * g * x)). replace (2 * 1) with (minus (F 1) (F (-1))).
      2:{ unfold minus, plus, opp, F; cbn -[sqrt pow]. rewrite S1, S2. field. lra. }
      apply (is_RInt_derive F); intros x X; rewrite Rmin_left, Rmax_right in X by lra; pose proof (D x X) as P.
      * assert (SP : 0 < sqrt (1 + g ^ 2 - 2 * g * x)) by (apply sqrt_lt_R0; auto). unfold F, henyey_greenstein. auto_derive; [ad|]. unfold Rminus in *. replace (g * (g * 1)) with (g ^ 2) by ring. replace (2 * g * 1) with (2 * g) by ring.
        set (s := sqrt (1 + g ^ 2 + - (2 * g * x))) in *. assert (Q : s * s = 1 + g ^ 2 + - (2 * g * x)) by (apply sqrt_sqrt; lra). clearbody s. field. lra.
      * apply (ex_derive_continuous (henyey_greenstein g)). auto.
    + set (F := fun x => (1 - g ^ 2) / (2 * g ^ 2) * ((1 + g ^ 2) / sqrt (1 + g ^ 2 - 2 * g * x) + sqrt (1 + g ^ 2 - 2 * g * x))). replace (2 * g) with (minus (F 1) (F (-1))).
      2:{ unfold minus, plus, opp, F; cbn -[sqrt pow]. rewrite S1, S2. field. lra. }
      apply (is_RInt_derive F); intros x X; rewrite Rmin_left, Rmax_right in X by lra; pose proof (D x X) as P.
      * assert (SP : 0 < sqrt (1 + g ^ 2 - 2 * g * x)) by (apply sqrt_lt_R0; auto). unfold F, henyey_greenstein. auto_derive; [ad|]. unfold Rminus in *. replace (g * (g * 1)) with (g ^ 2) by ring. replace (2 * g * 1) with (2 * g) by ring.
        set (s := sqrt (1 + g ^ 2 + - (2 * g * x))) in *. assert (Q : s * s = 1 + g ^ 2 + - (2 * g * x)) by (apply sqrt_sqrt; lra). assert (XE : x = (1 + g ^ 2 - s * s) / (2 * g)) by (rewrite Q; field; auto). clearbody s. subst x. field. lra.
      * apply (ex_derive_continuous (fun x => x * henyey_greenstein g x)). auto_derive. apply CT. auto.
Qed.
Lemma mean_flip f m : mean f m -> mean (fun x => f (- x)) m.
Proof.
  unfold mean. intros H. pose proof (is_RInt_comp_opp f (-1) 1 (- (2 * m))) as Q. replace (2 * m) with (opp (- (2 * m))) by (unfold opp; cbn; ring).
  apply (is_RInt_ext (fun y => opp (opp (f (- y))))); [intros y _; change (- - f (- y) = f (- y)); ring|]. apply (is_RInt_opp (V:=R_NormedModule)). apply Q. replace (- -1) with 1 by ring. replace (-(1)) with (-1) by ring. apply is_RInt_swap in H. exact H.
Qed.
Lemma mean_lin f g a b m n : mean f m -> mean g n -> mean (fun x => a * f x + b * g x) (a * m + b * n).
Proof.
  unfold mean. intros F G. replace (2 * (a * m + b * n)) with (plus (scal a (2 * m)) (scal b (2 * n))) by (unfold plus, scal; cbn; unfold mult; cbn; ring).
  apply (is_RInt_plus (V:=R_NormedModule) (fun x => scal a (f x)) (fun x => scal b (g x))); apply (is_RInt_scal (V:=R_NormedModule)); auto.
Qed.
Theorem C116_lobes : forall b c, -1 < b < 1 ->
  mean (fun x => particle_phase b c (acos x)) 1 /\ mean (fun x => x * particle_phase b c (acos x)) (b * (2 * c - 1)).
Proof.
  intros b c B. destruct (hg_mean b B) as (M0 & M1). assert (E : forall x, -1 < x < 1 -> particle_phase b c (acos x) = c * henyey_greenstein b x + (1 - c) * henyey_greenstein b (- x)) by (intros x X; unfold particle_phase; rewrite cos_acos by lra; auto).
  split.
  - unfold mean. apply (is_RInt_ext (fun x => c * henyey_greenstein b x + (1 - c) * henyey_greenstein b (- x))); [intros x X; rewrite Rmin_left, Rmax_right in X by lra; symmetry; apply E; auto|].
    replace (2 * 1) with (2 * (c * 1 + (1 - c) * 1)) by ring. apply (mean_lin _ (fun x => henyey_greenstein b (- x))); auto. apply (mean_flip (henyey_greenstein b)); auto.
  - unfold mean. apply (is_RInt_ext (fun x => c * (x * henyey_greenstein b x) + (- (1 - c)) * (- x * henyey_greenstein b (- x)))); [intros x X; rewrite Rmin_left, Rmax_right in X by lra; change (c * (x * henyey_greenstein b x) + - (1 - c) * (- x * henyey_greenstein b (- x)) = x * particle_phase b c (acos x)); rewrite E by auto; ring|].
    replace (2 * (b * (2 * c - 1))) with (2 * (c * b + (- (1 - c)) * b)) by ring. apply (mean_lin (fun x => x * henyey_greenstein b x) (fun x => - x * henyey_greenstein b (- x))); auto. apply (mean_flip (fun x => x * henyey_greenstein b x)); auto.
Qed.
(* the surge is B0 at opposition, half of it at tan (alpha / 2) = h, and falls with the phase angle *)
Theorem C116_surge : forall h B0, 0 < h -> 0 < B0 -> surge h B0 0 = B0 /\ surge h B0 (2 * atan h) = B0 / 2 /\ (forall a a', 0 <= a < a' -> a' < PI -> surge h B0 a' < surge h B0 a).
Proof.
  intros h B0 H P. split; [|split].
  - unfold surge. replace (0 / 2) with 0 by field. rewrite tan_0. field. lra.
  - unfold surge. replace (2 * atan h / 2) with (atan h) by field. rewrite tan_atan. field. lra.
  - intros a a' A A'. unfold surge. pose proof PI_RGT_0. assert (T : tan (a / 2) < tan (a' / 2)) by (apply tan_increasing; lra). assert (0 <= tan (a / 2)). { destruct (Req_dec a 0) as [->|]; [replace (0 / 2) with 0 by field; rewrite tan_0; lra|]. apply Rlt_le, tan_gt_0; lra. }
    apply Rmult_lt_compat_l; auto. pose proof (Rinv_0_lt_compat _ H). assert (0 <= tan (a / 2) / h) by (apply Rmult_le_pos; lra). apply Rinv_lt_contravar; [apply Rmult_lt_0_compat; [lra|]; assert (tan (a / 2) / h < tan (a' / 2) / h) by (apply Rmult_lt_compat_r; auto); lra|].
    apply Rplus_lt_compat_l, Rmult_lt_compat_r; auto.
Qed.
Print Assumptions C116_formula.
Print Assumptions C116_lobes.
Print Assumptions C116_surge.
(* light and camera 60 degrees apart over a lunar soil *)
Example C116_case : let n := V3 0 0 1 in let wi := V3 (/ 2) 0 (sqrt 3 / 2) in let wo := V3 (- / 2) 0 (sqrt 3 / 2) in 0 <= PI / 3 <= PI /\ dot wi wo = cos (PI / 3) /\ 0 < dot wi n /\ 0 < dot wo n /\ dot wi wi = 1.
Proof.
  cbv zeta. pose proof PI_RGT_0. rewrite cos_PI3. assert (S : 0 < sqrt 3) by (apply sqrt_lt_R0; lra). assert (Q : sqrt 3 * sqrt 3 = 3) by (apply sqrt_sqrt; lra). unfold dot; cbn. repeat split; try lra; nra.
Qed.
