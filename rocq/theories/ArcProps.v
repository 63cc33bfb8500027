(* The properties of trajectory arcs (C37, C38, C39). *)
From Verif Require Import Vec3 ArcModel ArcSpec ArcProofs ArcRootProofs.

(* C37: a polynomial arc of 1 to 3 samples, and a spline of any larger number of samples, pass through sample
   i at parameter i / (N - 1) *)
Theorem C37_polynomial_through_samples : forall (y : list R) (i : nat),
  (1 <= List.length y <= 3)%nat -> (i < List.length y)%nat ->
  evaluate_polynomial (build_polynomial y) (INR i / INR (List.length y - 1)) = nth i y 0.
Proof. exact poly_interp. Qed.
Print Assumptions C37_polynomial_through_samples.

Theorem C37_spline_through_samples : forall (n : nat) (y : nat -> R) (i : nat), (4 <= n)%nat -> (i < n)%nat ->
  evaluate_spline n y (INR i / INR (n - 1)) = y i.
Proof. intros n y i Hn Hi. exact (spline_interp n y Hn i Hi). Qed.
Print Assumptions C37_spline_through_samples.

(* outside the range the spline keeps its end values *)
Theorem C37_spline_clamped : forall (n : nat) (y : nat -> R) (t : R), (4 <= n)%nat ->
  (t <= 0 -> evaluate_spline n y t = y 0%nat) /\ (1 <= t -> evaluate_spline n y t = y (n - 1)%nat).
Proof.
  intros n y t Hn. split; intros Ht.
  - rewrite <- (spline_interp n y Hn 0) by lia. unfold evaluate_spline.
    rewrite knot_0. rewrite (Rmax_right t 0) by lra. rewrite (Rmax_left 0 0) by lra. reflexivity.
  - rewrite <- (spline_interp n y Hn (n - 1)) by lia. unfold evaluate_spline.
    rewrite (knot_last n y Hn). rewrite (Rmax_left t 0), (Rmin_right t 1) by lra.
    rewrite (Rmax_left 1 0), (Rmin_left 1 1) by lra. reflexivity.
Qed.
Print Assumptions C37_spline_clamped.

(* C38: the spline is twice continuously differentiable on (0,1) and its second derivative vanishes at both
   ends (natural spline), for any number of samples *)
Theorem C38_spline_is_natural_and_C2 : forall (n : nat) (y : nat -> R), (4 <= n)%nat ->
  exists S1 S2 : R -> R,
    (forall t, 0 < t < 1 -> derivable_pt_lim (evaluate_spline n y) t (S1 t)) /\
    (forall t, 0 < t < 1 -> derivable_pt_lim S1 t (S2 t)) /\
    (forall t, 0 < t < 1 -> continuity_pt S2 t) /\
    (forall eps, 0 < eps -> exists d, 0 < d /\ forall t, 0 < t < d -> Rabs (S2 t) < eps) /\
    (forall eps, 0 < eps -> exists d, 0 < d /\ forall t, 1 - d < t < 1 -> Rabs (S2 t) < eps).
Proof.
  intros n y Hn. exists (S1 n y), (S2 n y). repeat split.
  - intros; apply spline_deriv1; auto.
  - intros; apply spline_deriv2; auto.
  - intros; apply spline_cont2; auto.
  - apply S2_at_0; auto.
  - apply S2_at_1; auto.
Qed.
Print Assumptions C38_spline_is_natural_and_C2.

(* the elimination never divides by zero, whatever the number of samples *)
Theorem C38_no_zero_pivot : forall n i, (4 <= n)%nat -> 3 / INR (n - 1) <= diag n i.
Proof. intros n i Hn. pose proof (diag_ge n (fun _ => 0) Hn i) as H. rewrite (hh_eq n (fun _ => 0) Hn) in H. lra. Qed.
Print Assumptions C38_no_zero_pivot.

(* C39, full statement: for all coefficients and lo <= hi the finder satisfies finds_roots. Proved for the
   linear finder with a slope of at least the tolerance, the quadratic finder with a leading coefficient of at
   least the tolerance and a discriminant that is negative or at least the tolerance, and the cubic finder with
   three roots (discriminant above the tolerance). Missing: the remaining cases, where the statement is false of
   the code (next theorems) or depends on the tolerance. *)
Theorem C39_linear_partial : forall a b lo hi, lo <= hi -> reps <= Rabs a ->
  finds_roots (fun t => a * t + b) lo hi (solve_linear a b lo hi).
Proof. exact solve_linear_ok. Qed.
Print Assumptions C39_linear_partial.
Theorem C39_quadratic_partial : forall a b c lo hi, lo <= hi -> reps <= Rabs a ->
  b * b - 4 * a * c < 0 \/ reps <= b * b - 4 * a * c ->
  finds_roots (quadratic a b c) lo hi (solve_quadratic a b c lo hi).
Proof. exact solve_quadratic_ok. Qed.
Print Assumptions C39_quadratic_partial.
Theorem C39_cubic_three_roots_partial : forall a b c d lo hi, lo <= hi -> reps <= Rabs a ->
  reps < cubic_disc a b c d ->
  finds_roots (cubic a b c d) lo hi (solve_cubic a b c d lo hi).
Proof. exact solve_cubic_ok. Qed.
Print Assumptions C39_cubic_three_roots_partial.

(* the code is wrong for cubics with one real root: t^3 + t - 1/2 has a root in [0,1] and none is reported
   (square root of a negative number), and t^3 + 6 t^2 + 9 t - 49/8 has the root 1/2 and none is reported (the
   hyperbolic formula uses a factor 3/2 for 1/2) *)
Theorem C39_cubic_misses_roots :
  ~ (forall a b c d, reps <= Rabs a -> finds_roots (cubic a b c d) 0 1 (solve_cubic a b c d 0 1)) /\
  (exists r, 0 <= r <= 1 /\ cubic 1 0 1 (- (1 / 2)) r = 0) /\ solve_cubic 1 0 1 (- (1 / 2)) 0 1 = [] /\
  cubic 1 6 9 (- 49 / 8) (1 / 2) = 0 /\ solve_cubic 1 6 9 (- 49 / 8) 0 1 = [].
Proof.
  split; [|split; [|split; [|split]]].
  - intros H. destruct (H 1 6 9 (- 49 / 8)) as [_ B]. { rewrite Rabs_R1. unfold reps. lra. }
    destruct (B (1 / 2) ltac:(lra) cubic_missed_A_neg_root) as (x & Hx & _).
    rewrite cubic_missed_A_neg in Hx. destruct Hx.
  - exact cubic_has_root.
  - exact cubic_missed_A_pos.
  - exact cubic_missed_A_neg_root.
  - exact cubic_missed_A_neg.
Qed.
Print Assumptions C39_cubic_misses_roots.

(* and for quadratics with a small positive discriminant it reports a value that is no root up to the
   tolerance, and misses the root *)
Theorem C39_quadratic_small_discriminant :
  ~ finds_roots (quadratic (1 / 10000) 0 (- 1 / 10000000)) 0 1 (solve_quadratic (1 / 10000) 0 (- 1 / 10000000) 0 1).
Proof.
  intros [A _]. destruct (A 0) as (_ & r & Hr & N). { rewrite quadratic_small_disc. left; auto. }
  unfold quadratic in Hr. unfold near, reps in N. pose proof (Rle_abs (0 - r)). pose proof (Rle_abs (- (0 - r))) as Q. rewrite Rabs_Ropp in Q.
  assert (r * r = 1 / 1000) by lra. assert (- 1 / 10000000000 <= r <= 1 / 10000000000) by lra. nra.
Qed.
Print Assumptions C39_quadratic_small_discriminant.

(** Non-vacuity *)
Example C37_ex : evaluate_polynomial (build_polynomial [1; 5; 2]) (1 / 2) = 5.
Proof. cbn. field. Qed.
(* a spline through 0, 1, 0, 1, 0 *)
Example C37_spline_ex : evaluate_spline 5 (fun i => INR (i mod 2)) (3 / 4) = 1.
Proof.
  pose proof (C37_spline_through_samples 5 (fun i => INR (i mod 2)) 3 ltac:(lia) ltac:(lia)) as H.
  cbn in H. replace (3 / 4) with ((1 + 1 + 1) / (1 + 1 + 1 + 1)) by field. exact H.
Qed.
(* (t - 1/4)(t - 1/2): both roots satisfy the hypotheses of the quadratic theorem *)
Example C39_quadratic_ex : reps <= Rabs 1 /\ reps <= (- (3 / 4)) * (- (3 / 4)) - 4 * 1 * (1 / 8).
Proof. rewrite Rabs_R1. unfold reps. lra. Qed.
(* t (t - 1/2)(t - 1) satisfies the hypotheses of the cubic theorem *)
Example C39_cubic_ex : reps < cubic_disc 1 (- (3 / 2)) (1 / 2) 0 /\ cubic 1 (- (3 / 2)) (1 / 2) 0 (1 / 2) = 0.
Proof. unfold cubic_disc, cubic, reps. split; lra. Qed.
