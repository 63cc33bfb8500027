(* A concrete case for C114: a camera three hundred thousand kilometres from a body at rest, moving across the line of sight at 30 km/s. *)
From Verif Require Import Vec3 TransformModel TransformSpec TransformProofs TransformProps SpectralModel MotionModel LightTimeProps MotionProofs MotionProps MotionCases SkyProps.
From Coq Require Import String.
From Coquelicot Require Import Coquelicot.
Open Scope R_scope.

Definition orbiter : transform := T (V3 0 (-300000000) 0) ident (V3 1 1 1) (V3 30000 0 0) vzero.
Lemma orbiter_camera : camera orbiter. Proof. split; [apply ident_rotation|reflexivity]. Qed.
Lemma orbiter_sees eps epoch t mode : mode <> Aberrated -> exists st, apparent_transform eps eph (root :: nil) mode epoch t orbiter = Ok st /\ t_pos st = vzero /\ t_rot st = ident.
Proof.
  intros M. destruct mode; [|destruct (C109_light_time eps eph (root :: nil) epoch (fun _ => t_default) 0 t orbiter (root_state eps epoch)) as (tau & _ & _ & d & E & _)|congruence].
  - exists t_default. split; [exact (root_state eps epoch t orbiter)|split; reflexivity].
  - intros a b. replace (vsub (t_pos t_default) (t_pos t_default)) with vzero by vec. rewrite vlen_zero. lra.
  - unfold SPEED_OF_LIGHT; lra.
  - exists t_default. split; [exact E|split; reflexivity].
Qed.
(* the hypotheses of all three parts hold in it, for the object and for a star behind it, and the renders succeed *)
Example C114_case : forall eps epoch t, camera orbiter /\ t_vel orbiter <> vzero /\ dot ey (t_vel orbiter) = 0 /\ dot ey ey = 1 /\
  (forall mode, mode <> Aberrated -> exists st, apparent_transform eps eph (root :: nil) mode epoch t orbiter = Ok st /\ vsub (t_pos st) (t_pos orbiter) = vscale 300000000 ey) /\
  (forall mode, (exists rt, render_transform eps eph (root :: nil) mode epoch t orbiter = Ok rt) /\ exists s, render_star ey mode orbiter = Ok s).
Proof.
  intros eps epoch t. split; [apply orbiter_camera|]. split; [intros H; apply (f_equal vx) in H; cbn in H; lra|]. split; [unfold dot; cbn; ring|]. split; [unfold dot; cbn; ring|]. split.
  - intros mode M. destruct (orbiter_sees eps epoch t mode M) as (st & E & P & _). exists st. split; auto. rewrite P. vec.
  - intros mode. assert (AB : forall u, exists w, aberrated u (t_vel orbiter) = Ok w).
    { intros u. unfold aberrated. cbv zeta. rewrite (proj2 (Rltb_true _ _)); [eexists; reflexivity|]. unfold dot, SPEED_OF_LIGHT; cbn. lra. }
    split.
    + destruct (unit_inverse orbiter orbiter_camera) as (inv & E & PI & _). unfold render_transform. rewrite E. cbn [obind].
      assert (A : exists st, apparent_transform eps eph (root :: nil) mode epoch t orbiter = Ok st /\ t_rot st = ident).
      { destruct mode; [destruct (orbiter_sees eps epoch t TrueState) as (st & A & _ & B); [congruence|eauto]|destruct (orbiter_sees eps epoch t Geometric) as (st & A & _ & B); [congruence|eauto]|].
        destruct (orbiter_sees eps epoch t Geometric) as (st & A & _ & B); [congruence|]. unfold apparent_transform in *. destruct (geometric_state _ _ _ _ _ _ _ _) as [[g dt]| |]; cbn [obind fst] in *; try discriminate. injection A as ->.
        destruct (Rltb _ _); [|eauto]. destruct (AB (vscale (/ vlen (vsub (t_pos st) (t_pos orbiter))) (vsub (t_pos st) (t_pos orbiter)))) as (w & W). rewrite W. cbn [obind]. eexists. split; [reflexivity|]. exact B. }
      destruct A as (st & A & B). rewrite A. cbn [obind]. unfold t_mul, rot_mul. rewrite B, set_matrix_id; [eexists; reflexivity|]. apply mmul_rotation; [exact PI|apply ident_rotation].
    + unfold render_star. destruct (AB ey) as (w & ->). cbn [obind]. unfold rot_inverse. rewrite set_matrix_id; [eexists; reflexivity|]. apply transpose_rotation, ident_rotation.
Qed.
