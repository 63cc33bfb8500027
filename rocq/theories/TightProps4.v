(* Consequences of C34, C77, C110 and C123: the camera convention can always be set, what happens to the velocity of a point, the observer's own
   state, and colour TIFF files read as gray. *)
From Coq Require Import Reals ZArith Lra Lia List.
From Verif Require Import Common Vec3 Float32 TransformModel MotionModel TiffModel.
From Verif Require CameraModel.
Import ListNotations.
Open Scope R_scope.

Local Lemma abs_inv : forall a b, Rabs a <= b -> - b <= a <= b.
Proof. intros a b H. unfold Rabs in H. destruct (Rcase_abs a); lra. Qed.

(* C77: a point that moves with velocity v in a frame that moves without turning is, at every time, where the frame's velocity carries it *)
Definition moved (t : transform) (tau : R) : transform := T (vadd (t_pos t) (vscale tau (t_vel t))) (t_rot t) (t_scale t) (t_vel t) (t_ang t).
Theorem C77_carried : forall t p v tau, to_point (moved t tau) (vadd p (vscale tau v)) = vadd (to_point t p) (vscale tau (to_velocity t v)).
Proof.
  intros [[px py pz] [[a b c] [d e f] [g h i]] [sx sy sz] [vx0 vy0 vz0] w] [x y z] [vx vy vz] tau.
  unfold moved, to_point, to_velocity, mapply, vadd, vscale, vmul. cbn. f_equal; ring.
Qed.
Print Assumptions C77_carried.

(* C110: the camera sits where its own frame truly is, and moves with it *)
Theorem C110_observer : forall eps e camera sensor epoch t any st o, apparent_transform eps e camera TrueState epoch t any = Ok st -> observer_state eps e camera sensor epoch t = Ok o ->
  t_pos o = t_pos st /\ t_vel o = t_vel st /\ t_ang o = t_ang st /\ t_scale o = t_scale st.
Proof.
  intros eps e camera sensor epoch t any st o A O. unfold apparent_transform, geometric_state in A. unfold observer_state in O.
  destruct (ssb_transform eps e camera epoch t 0) as [s| |]; cbn in A, O; try discriminate. injection A as <-. destruct (rot_mul (t_rot s) sensor); cbn in O; try discriminate. injection O as <-. auto.
Qed.
Print Assumptions C110_observer.

(* C123: a file of one channel read as gray is that channel; one of three channels is their mean to within 2^-21; any other number of colours is refused *)
Theorem C123_gray : forall p n (v : Z -> R), p = MinIsBlack \/ p = Rgb -> (0 <= n)%Z -> (forall k, 0 <= v k <= 1) ->
  (n = 1%Z -> read_mono p [] n v = Ok (v 0%Z, None)) /\
  (n = 3%Z -> exists g, read_mono p [] n v = Ok (g, None) /\ Rabs (g - (v 0%Z + v 1%Z + v 2%Z) / 3) <= / 2 ^ 21) /\
  (n <> 1%Z -> n <> 3%Z -> read_mono p [] n v = Throws) /\
  (n = 2%Z -> forall x, x = Assoc_alpha \/ x = Unassoc_alpha -> read_mono p [x] n v = Ok (v 0%Z, Some (v 1%Z))).
Proof.
  intros p n v P N B. assert (AD : forall a m k x, adjust p a m k x = x) by (intros; destruct P as [->| ->]; reflexivity).
  split; [|split; [|split]].
  - intros ->. unfold read_mono. cbn. rewrite AD. reflexivity.
  - intros ->. assert (Q1 : / 2 ^ 21 = / 2097152) by (f_equal; cbn; lra). rewrite Q1. unfold read_mono. cbn -[Rabs]. rewrite !AD. eexists. split; [reflexivity|]. pose proof (B 0%Z). pose proof (B 1%Z). pose proof (B 2%Z). set (x := v 0%Z) in *. set (y := v 1%Z) in *. set (z := v 2%Z) in *.
    assert (T : / 2 ^ 126 <= 1). { rewrite <- Rinv_1. apply Rinv_le_contravar; [lra|]. apply pow_R1_Rle. lra. }
    assert (Q : / 2 ^ 23 = / 8388608) by (f_equal; cbn; lra). 
    assert (E1 : Rabs (fl (x + y) - (x + y)) <= / 2 ^ 23 * 2) by (apply fl_close; [apply Rabs_le; lra|lra]). rewrite Q in E1. apply abs_inv in E1. set (s := fl (x + y)) in *.
    assert (E2 : Rabs (fl (s + z) - (s + z)) <= / 2 ^ 23 * (301 / 100)) by (apply fl_close; [apply Rabs_le; lra|lra]). rewrite Q in E2. apply abs_inv in E2. set (u := fl (s + z)) in *.
    assert (E3 : Rabs (fl (u / 3) - u / 3) <= / 2 ^ 23 * (101 / 100)) by (apply fl_close; [apply Rabs_le; lra|lra]). rewrite Q in E3. apply abs_inv in E3. apply Rabs_le. lra.
  - intros N1 N3. unfold read_mono. cbn. apply Z.eqb_neq in N1. apply Z.eqb_neq in N3. rewrite N1, N3. reflexivity.
  - intros -> x X. unfold read_mono. destruct X as [->| ->]; cbn; rewrite !AD; reflexivity.
Qed.
Print Assumptions C123_gray.
Example C123_gray_case : forall k : Z, 0 <= / 2 <= 1. Proof. intros. lra. Qed.

(* C34: choosing the convention cannot fail *)
Theorem C34_convention : forall b c, snd (CameraModel.use_blender_convention b c) = false /\ CameraModel.blender (fst (CameraModel.use_blender_convention b c)) = b.
Proof. intros b c. split; reflexivity. Qed.
Print Assumptions C34_convention.
