(* Lemmas for EnergyProps: continuity of acos, integrals over the hemisphere. *)
From Coq Require Import Reals Lra.
From Coquelicot Require Import Coquelicot.
From Verif Require Import Common Vec3 LightModel BsdfModel BsdfSpec BsdfProps.
Open Scope R_scope.

Definition acosc (x : R) : R := acos (clamp x (-1) 1).
Lemma clamp_b x : -1 <= clamp x (-1) 1 <= 1.
Proof. unfold clamp. destruct (Rltb x (-1)) eqn:A; [lra|]. destruct (Rltb 1 x) eqn:B; [lra|]. apply Rltb_false in A, B. lra. Qed.
Lemma clamp_lip x y : Rabs (clamp x (-1) 1 - clamp y (-1) 1) <= Rabs (x - y).
Proof.
  unfold clamp. destruct (Rltb x (-1)) eqn:A, (Rltb 1 x) eqn:B, (Rltb y (-1)) eqn:C, (Rltb 1 y) eqn:D; rewrite ?Rltb_true, ?Rltb_false in *; unfold Rabs; repeat destruct (Rcase_abs _); lra.
Qed.
Lemma acosc_continuous x : continuous acosc x.
Proof.
  apply continuity_pt_filterlim. intros eps He. set (e := Rmin eps PI). assert (0 < e <= PI) by (unfold e, Rmin; pose proof PI_RGT_0; destruct (Rle_dec _ _); lra).
  assert (S : 0 < sin (e / 2)) by (apply sin_gt_0; lra).
  exists (2 * (sin (e / 2) * sin (e / 2))). split; [nra|]. intros y (_ & L). cbn in *. unfold R_dist in *. unfold acosc.
  pose proof (clamp_lip y x) as CL. pose proof (clamp_b x) as BX. pose proof (clamp_b y) as BY. set (p := clamp x (-1) 1) in *. set (q := clamp y (-1) 1) in *. clearbody p q.
  assert (K : forall p q, -1 <= p <= 1 -> -1 <= q <= 1 -> Rabs (p - q) < 2 * (sin (e / 2) * sin (e / 2)) -> acos p - acos q < eps).
  { clear - S H He. intros p q BP BQ L. apply Rnot_le_lt. intros G. assert (GE : e <= acos p - acos q) by (unfold e; pose proof (Rmin_l eps PI); lra).
    pose proof (acos_bound p). pose proof (acos_bound q). set (a := acos p) in *. set (b := acos q) in *.
    assert (EP : p = cos a) by (unfold a; rewrite cos_acos; auto). assert (EQ : q = cos b) by (unfold b; rewrite cos_acos; auto).
    assert (F : q - p = 2 * sin ((a - b) / 2) * sin ((a + b) / 2)). { rewrite EP, EQ, form2. replace ((b - a) / 2) with (- ((a - b) / 2)) by field. rewrite sin_neg. replace ((b + a) / 2) with ((a + b) / 2) by field. ring. }
    assert (S1 : sin (e / 2) <= sin ((a - b) / 2)) by (apply sin_incr_1; lra).
    assert (S2 : sin (e / 2) <= sin ((a + b) / 2)).
    { destruct (Rle_dec ((a + b) / 2) (PI / 2)); [apply sin_incr_1; lra|]. rewrite <- (sin_PI_x ((a + b) / 2)). apply sin_incr_1; lra. }
    rewrite Rabs_minus_sym in L. pose proof (Rle_abs (q - p)). rewrite F in *. nra. }
  assert (A : acos q - acos p < eps) by (apply K; auto; lra). assert (B : acos p - acos q < eps) by (apply K; auto; rewrite Rabs_minus_sym; lra). apply Rabs_def1; lra.
Qed.

(* an integral over a parameter of a continuous function is continuous *)
Lemma param_continuous (G : R -> R -> R) (a b x : R) : a <= b -> (forall z y, a <= z <= b -> continuity_2d_pt G z y) ->
  continuous (fun y => RInt (fun z => G z y) a b) x.
Proof.
  intros AB C.
  assert (EI : forall y, ex_RInt (fun z => G z y) a b).
  { intros y. apply (ex_RInt_continuous (V := R_CompleteNormedModule)). intros z Hz. rewrite Rmin_left, Rmax_right in Hz by lra. specialize (C z y Hz). apply continuity_pt_filterlim.
    intros e He. destruct (C (mkposreal e He)) as [d Hd]. exists d. split; [apply cond_pos|]. intros u (_ & L). cbn in *. unfold R_dist in *. apply Hd; auto. rewrite Rminus_diag_eq; auto. rewrite Rabs_R0. apply cond_pos. }
  apply continuity_pt_filterlim. intros e He. set (e' := e / (2 * (b - a + 1))). assert (He' : 0 < e') by (unfold e'; apply Rdiv_lt_0_compat; lra).
  destruct (uniform_continuity_2d_1d G a b x (fun z Hz => C z x Hz) (mkposreal e' He')) as [d Hd]. exists d. split; [apply cond_pos|]. intros y (_ & L). cbn in *. unfold R_dist in *.
  assert (RM : RInt (fun z => G z y) a b - RInt (fun z => G z x) a b = RInt (fun z => G z y + - G z x) a b) by (symmetry; exact (RInt_minus (V := R_CompleteNormedModule) (fun z => G z y) (fun z => G z x) a b (EI y) (EI x))). cbn in RM |- *. setoid_rewrite RM.
  pose proof (abs_RInt_le_const (fun z => G z y + - G z x) a b e' AB) as Q. cbn in Q.
  assert (BD : Rabs (RInt (fun z => G z y + - G z x) a b) <= (b - a) * e').
  { apply Q.
    - apply (ex_RInt_minus (V := R_NormedModule) (fun z => G z y) (fun z => G z x)); auto.
    - intros z Hz. left. apply (Hd z x z y); auto.
      + pose proof (cond_pos d). lra.
      + apply Rabs_def2 in L. lra.
      + rewrite Rminus_diag_eq; auto. rewrite Rabs_R0. apply cond_pos. }
  assert ((b - a) * e' < e). { unfold e'. apply Rmult_lt_reg_r with (2 * (b - a + 1)); [lra|]. replace ((b - a) * (e / (2 * (b - a + 1))) * (2 * (b - a + 1))) with ((b - a) * e) by (field; lra). nra. }
  eapply Rle_lt_trans; [exact BD|auto].
Qed.
