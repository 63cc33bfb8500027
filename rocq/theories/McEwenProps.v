(* The McEwen lunar-Lambert law (C107): between Lommel-Seeliger and Lambert, according to the phase angle. *)
From Coq Require Import Reals Lra.
From Verif Require Import Common Vec3 LightModel BsdfModel BsdfSpec BsdfProps.
Open Scope R_scope.

Definition seen (n wo wi : vec3) : Prop := unit n /\ unit wo /\ unit wi /\ above n wo /\ above n wi.
(* share of Lommel-Seeliger in a value lying between the two laws *)
Definition blend (share : R) (wo wi n : vec3) (p : params) : R :=
  share * eval LommelSeeliger wo wi n p + (1 - share) * eval Lambertian wo wi n p.

Lemma mcewen_blend wo wi n p : above n wo -> above n wi ->
  eval McEwen wo wi n p = blend (exp (- acos (cos_alpha_of wo wi) * (3 * / PI))) wo wi n p.
Proof.
  unfold above, blend. intros A B. pose proof PI_RGT_0. cbn [eval].
  assert (E1 : Rleb (dot wi n) 0 = false) by (unfold Rleb; destruct (Rle_dec _ _); auto; lra).
  assert (E2 : Rleb (dot wo n) 0 = false) by (unfold Rleb; destruct (Rle_dec _ _); auto; lra).
  rewrite E1, E2. cbn [orb]. cbv zeta. field. split; lra.
Qed.
Lemma phase_acos wo wi : unit wo -> unit wi -> cos_alpha_of wo wi = dot wi wo.
Proof.
  intros A B. pose proof (unit_dot_le wi wo B A). unfold cos_alpha_of, clamp, Rltb.
  destruct (Rlt_dec _ _); [lra|]. destruct (Rlt_dec _ _); lra.
Qed.
(* the phase angle between two unit directions *)
Definition phase (wo wi : vec3) : R := acos (dot wi wo).
(* for every visible pair of directions: a blend whose Lommel-Seeliger share depends on the phase angle alone, is 1 at opposition,
   falls by a factor e every 60 degrees, and never leaves (0, 1] *)
Theorem C107_mcewen : exists L : R -> R, L 0 = 1 /\ (forall a, L (a + PI / 3) = L a / exp 1) /\ (forall a b, a < b -> L b < L a) /\ (forall a, 0 <= a -> 0 < L a <= 1) /\
  forall n wo wi p, seen n wo wi -> eval McEwen wo wi n p = blend (L (phase wo wi)) wo wi n p.
Proof.
  pose proof PI_RGT_0. pose proof inv_PI_pos.
  exists (fun a => exp (- a * (3 * / PI))). repeat split.
  - replace (- 0 * _) with 0 by ring. apply exp_0.
  - intros a. unfold Rdiv at 2. rewrite <- exp_Ropp, <- exp_plus. f_equal. field. lra.
  - intros a b D. apply exp_increasing. nra.
  - apply exp_pos.
  - rewrite <- exp_0. destruct (Req_dec a 0) as [->|]; [replace (- 0 * _) with 0 by ring; lra|]. left. apply exp_increasing. nra.
  - intros n wo wi p (U & V & W & A & B). rewrite mcewen_blend by auto. rewrite phase_acos by auto. reflexivity.
Qed.
Print Assumptions C107_mcewen.
(* so at opposition it is Lommel-Seeliger exactly, and everywhere it lies between the two laws *)
Theorem C107_opposition : forall n wo p, unit wo -> above n wo -> eval McEwen wo wo n p = eval LommelSeeliger wo wo n p.
Proof.
  intros n wo p U A. rewrite mcewen_blend by auto. rewrite phase_acos by auto. unfold unit in U. rewrite U, acos_1. unfold blend.
  replace (- 0 * _) with 0 by ring. rewrite exp_0. ring.
Qed.
Print Assumptions C107_opposition.
Theorem C107_between : forall n wo wi p, seen n wo wi ->
  Rmin (eval LommelSeeliger wo wi n p) (eval Lambertian wo wi n p) <= eval McEwen wo wi n p <= Rmax (eval LommelSeeliger wo wi n p) (eval Lambertian wo wi n p).
Proof.
  intros n wo wi p S. destruct C107_mcewen as (L & _ & _ & _ & B & E). rewrite (E _ _ _ p S). unfold blend.
  assert (P : 0 <= phase wo wi) by (unfold phase; apply acos_bound). specialize (B _ P).
  set (s := L _) in *. clearbody s. set (x := eval LommelSeeliger _ _ _ _). set (y := eval Lambertian _ _ _ _). clearbody x y.
  unfold Rmin, Rmax. destruct (Rle_dec x y); nra.
Qed.
Print Assumptions C107_between.
Example C107_case : seen (V3 0 0 1) (V3 0 (6 / 10) (8 / 10)) (V3 0 0 1) /\ phase (V3 0 (6 / 10) (8 / 10)) (V3 0 0 1) = acos (8 / 10) /\
  eval LommelSeeliger (V3 0 0 1) (V3 0 0 1) (V3 0 0 1) (Pa 1 0 0) < eval Lambertian (V3 0 0 1) (V3 0 0 1) (V3 0 0 1) (Pa 1 0 0).
Proof.
  unfold seen, unit, above, phase, dot. cbn [vx vy vz]. repeat split; try lra; [f_equal; lra|].
  cbn [eval]. unfold dot, Rleb. cbn [vx vy vz]. destruct (Rle_dec _ _); [lra|]. cbn [orb p_albedo]. pose proof PI_RGT_0.
  unfold Rdiv. rewrite !Rmult_1_l. apply Rinv_lt_contravar; nra.
Qed.
