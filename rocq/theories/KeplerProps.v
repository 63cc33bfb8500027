(** * C153: a node on a Keplerian orbit. *)
From Verif Require Import Common Vec3 TransformModel TransformSpec KeplerModel KeplerSpec.
From Coquelicot Require Import Coquelicot.
From Coq Require Import Reals Lra Lia.
Open Scope R_scope.

Lemma sin_lip x y : Rabs (sin y - sin x) <= Rabs (y - x).
Proof.
  destruct (MVT_gen sin x y cos) as (c & _ & E).
  - intros z _. apply is_derive_sin || (auto_derive; [auto|ring]).
  - intros z _. apply continuity_sin.
  - rewrite E, Rabs_mult. pose proof (COS_bound c). assert (Rabs (cos c) <= 1) by (apply Rabs_le; lra). pose proof (Rabs_pos (y - x)). nra.
Qed.
Lemma cos_lip x y : Rabs (cos y - cos x) <= Rabs (y - x).
Proof.
  destruct (MVT_gen cos x y (fun z => - sin z)) as (c & _ & E).
  - intros z _. auto_derive; [auto|ring].
  - intros z _. apply continuity_cos.
  - rewrite E, Rabs_mult, Rabs_Ropp. pose proof (SIN_bound c). assert (Rabs (sin c) <= 1) by (apply Rabs_le; lra). pose proof (Rabs_pos (y - x)). nra.
Qed.
Lemma kepler_unique e x y : 0 <= e < 1 -> x - e * sin x = y - e * sin y -> x = y.
Proof.
  intros (E0 & E1) H. pose proof (sin_lip x y) as L. assert (A: y - x = e * (sin y - sin x)) by lra. assert (B: Rabs (y - x) <= e * Rabs (y - x)). { rewrite A at 1. rewrite Rabs_mult, (Rabs_right e) by lra. nra. }
  pose proof (Rabs_pos (y - x)). assert (Z: Rabs (y - x) = 0) by nra. apply Rabs_eq_0 in Z. lra.
Qed.
Lemma kepler_den e x : 0 <= e < 1 -> 1 - e <= 1 - e * cos x <= 1 + e.
Proof. intros H. pose proof (COS_bound x). nra. Qed.
Lemma kepler_exists e M : 0 <= e < 1 -> { x | x - e * sin x = M }.
Proof.
  intros H. destruct (IVT (fun x => x - e * sin x - M) (M - 1) (M + 1)) as (z & _ & Z).
  - reg.
  - lra.
  - pose proof (SIN_bound (M - 1)). nra.
  - pose proof (SIN_bound (M + 1)). nra.
  - exists z. lra.
Qed.
Definition some_solver (e M : R) : R :=
  match Rle_dec 0 e, Rlt_dec e 1 with left p, left q => proj1_sig (kepler_exists e M (conj p q)) | _, _ => 0 end.
Lemma some_solver_ok : solves some_solver.
Proof. intros e M H. unfold some_solver. destruct (Rle_dec 0 e); [|lra]. destruct (Rlt_dec e 1); [|lra]. destruct (kepler_exists e M _) as (x & X). exact X. Qed.

(* the eccentric anomaly's rate *)
Lemma anomaly_rate solver e m0 n t0 t : solves solver -> 0 <= e < 1 -> 0 < n ->
  is_derive (fun x => solver e (m0 + n * (x - t0))) t (n / (1 - e * cos (solver e (m0 + n * (t - t0))))).
Proof.
  intros S He Hn. set (F := fun x => solver e (m0 + n * (x - t0))). change (is_derive F t (n / (1 - e * cos (F t)))). apply is_derive_Reals. intros eps Heps.
  assert (D: 0 < eps * ((1 - e) * (1 - e) * (1 - e)) / (n * n + 1)). { apply Rdiv_lt_0_compat; [|nra]. apply Rmult_lt_0_compat; auto. repeat apply Rmult_lt_0_compat; lra. }
  exists (mkposreal _ D). intros h Hh Hlt. cbn [pos] in Hlt. pose proof (S e (m0 + n * (t - t0)) He) as S0. pose proof (S e (m0 + n * (t + h - t0)) He) as S1. fold (F t) in S0. fold (F (t + h)) in S1.
  destruct (MVT_gen sin (F t) (F (t + h)) cos) as (c & Hc & E); [intros z _; auto_derive; [auto|ring]|intros z _; apply continuity_sin|].
  set (x := F t) in *. set (y := F (t + h)) in *. assert (Q: (y - x) * (1 - e * cos c) = n * h) by nra.
  destruct (kepler_den e c He) as (K1 & _). destruct (kepler_den e x He) as (K2 & _). set (u := 1 - e * cos c) in *. set (w := 1 - e * cos x) in *.
  assert (Y: y - x = n * h / u) by (rewrite <- Q; field; lra). rewrite Y. replace (n * h / u / h - n / w) with (n * e * (cos c - cos x) / (u * w)) by (unfold u, w in *; field; repeat split; auto; lra).
  assert (CX: Rabs (c - x) <= Rabs (y - x)). { unfold Rmin, Rmax in Hc. destruct (Rle_dec x y) as [G|G]; [rewrite !Rabs_right by lra; lra|]. rewrite !Rabs_left1 by lra. lra. }
  assert (YB: Rabs (y - x) * u = n * Rabs h). { rewrite <- (Rabs_right u) at 1 by lra. rewrite <- Rabs_mult, Q, Rabs_mult, (Rabs_right n) by lra. reflexivity. }
  pose proof (cos_lip x c) as L. unfold Rdiv. rewrite !Rabs_mult, (Rabs_right n), (Rabs_right e), (Rabs_right (/ (u * w))) by (try lra; apply Rle_ge, Rlt_le, Rinv_0_lt_compat; nra).
  assert (U: Rabs (cos c - cos x) * (1 - e) <= n * Rabs h). { rewrite <- YB. pose proof (Rabs_pos (cos c - cos x)). apply Rmult_le_compat; lra. }
  assert (W: (1 - e) * (1 - e) <= u * w) by nra.
  assert (H1: Rabs h * (n * n + 1) < eps * ((1 - e) * (1 - e) * (1 - e))). { apply Rmult_lt_reg_r with (/ (n * n + 1)); [apply Rinv_0_lt_compat; nra|]. rewrite Rmult_assoc, Rinv_r, Rmult_1_r by nra. exact Hlt. }
  apply Rmult_lt_reg_r with (u * w); [nra|]. rewrite !Rmult_assoc, Rinv_l, Rmult_1_r by nra.
  apply Rmult_lt_reg_r with (1 - e); [lra|]. pose proof (Rabs_pos h). pose proof (Rabs_pos (cos c - cos x)).
  apply Rle_lt_trans with (n * (n * Rabs h)). { replace (n * (e * Rabs (cos c - cos x)) * (1 - e)) with (n * (e * (Rabs (cos c - cos x) * (1 - e)))) by ring. apply Rmult_le_compat_l; [lra|]. apply Rle_trans with (1 * (Rabs (cos c - cos x) * (1 - e))); [|lra]. apply Rmult_le_compat_r; [|lra]. apply Rmult_le_pos; lra. }
  apply Rle_lt_trans with (Rabs h * (n * n + 1)); [nra|]. eapply Rlt_le_trans; [apply H1|]. rewrite !Rmult_assoc. apply Rmult_le_compat_l; [lra|]. nra.
Qed.

(* the frame of the orbit *)
Section frame.
Variables i raan argp : R.
Let p := to_periapsis i raan argp. Let q := ahead_of_it i raan argp.
Lemma sq x : sin x * sin x = 1 - cos x * cos x.
Proof. pose proof (sin2_cos2 x) as H. unfold Rsqr in H. lra. Qed.
Lemma frame_ok : dot p p = 1 /\ dot q q = 1 /\ dot p q = 0 /\ cross p q = plane_normal i raan.
Proof.
  pose proof (sq i) as Hi. pose proof (sq raan) as Hr. pose proof (sq argp) as Ha. unfold p, q, to_periapsis, ahead_of_it, dot, cross, plane_normal. cbn [vx vy vz].
  set (si := sin i) in *. set (ci := cos i) in *. set (sr := sin raan) in *. set (cr := cos raan) in *. set (sa := sin argp) in *. set (ca := cos argp) in *. clearbody si ci sr cr sa ca.
  repeat split; try (ring [Hi Hr Ha]). apply v3_eq; cbn [vx vy vz]; ring [Hi Hr Ha].
Qed.
End frame.

(* the orbit as a curve of the eccentric anomaly *)
Definition curve (A e : R) (p q : vec3) (E : R) : vec3 := vadd (vscale (A * (cos E - e)) p) (vscale (A * sqrt (1 - e * e) * sin E) q).
Definition speed (A e n : R) (p q : vec3) (E : R) : vec3 := vadd (vscale (- (A * sin E * (n / (1 - e * cos E)))) p) (vscale (A * sqrt (1 - e * e) * cos E * (n / (1 - e * cos E))) q).
Lemma curve_length A e p q E : 0 < A -> 0 <= e < 1 -> dot p p = 1 -> dot q q = 1 -> dot p q = 0 -> vlen (curve A e p q E) = A * (1 - e * cos E).
Proof.
  intros HA He P Q O. unfold vlen. destruct (kepler_den e E He) as (K & _). rewrite <- (sqrt_square (A * (1 - e * cos E))) by nra. f_equal.
  assert (SQ: sqrt (1 - e * e) * sqrt (1 - e * e) = 1 - e * e) by (apply sqrt_sqrt; nra). pose proof (sq E) as S.
  set (k := A * (cos E - e)). set (l := A * sqrt (1 - e * e) * sin E). replace (dot (curve A e p q E) (curve A e p q E)) with (k * k * dot p p + 2 * (k * l) * dot p q + l * l * dot q q) by (unfold curve, k, l, dot, vadd, vscale; cbn; ring).
  rewrite P, Q, O. unfold k, l. replace (A * sqrt (1 - e * e) * sin E * (A * sqrt (1 - e * e) * sin E)) with (A * A * (sqrt (1 - e * e) * sqrt (1 - e * e)) * (sin E * sin E)) by ring. rewrite SQ, S. ring.
Qed.
Section motion.
Variables (A e n : R) (p q : vec3) (F : R -> R) (t : R).
Hypotheses (HA : 0 < A) (He : 0 <= e < 1) (Hn : 0 < n) (P : dot p p = 1) (Q : dot q q = 1) (O : dot p q = 0) (HF : is_derive F t (n / (1 - e * cos (F t)))).
Lemma comp_derive f df d : is_derive f (F t) df -> d = n / (1 - e * cos (F t)) * df -> is_derive (fun x => f (F x)) t d.
Proof. intros D ->. apply (is_derive_comp f F t df _ D HF). Qed.
Lemma curve_derive : vderive (fun x => curve A e p q (F x)) t (speed A e n p q (F t)).
Proof.
  destruct (kepler_den e (F t) He) as (K & _). set (b := sqrt (1 - e * e)).
  assert (C: forall u v, is_derive (fun x => A * (cos (F x) - e) * u + A * b * sin (F x) * v) t (- (A * sin (F t) * (n / (1 - e * cos (F t)))) * u + A * b * cos (F t) * (n / (1 - e * cos (F t))) * v)).
  { intros u v. apply (comp_derive (fun E => A * (cos E - e) * u + A * b * sin E * v) (- A * sin (F t) * u + A * b * cos (F t) * v)); [auto_derive; [auto|ring]|field; lra]. }
  split; [|split]; apply C.
Qed.
Lemma speed_derive : vderive (fun x => speed A e n p q (F x)) t (vscale (- (n * n * (A * A * A) / (vlen (curve A e p q (F t)) * vlen (curve A e p q (F t)) * vlen (curve A e p q (F t))))) (curve A e p q (F t))).
Proof.
  rewrite curve_length by auto. destruct (kepler_den e (F t) He) as (K & _). pose proof (sq (F t)) as S. set (b := sqrt (1 - e * e)).
  assert (C: forall u v, is_derive (fun x => - (A * sin (F x) * (n / (1 - e * cos (F x)))) * u + A * b * cos (F x) * (n / (1 - e * cos (F x))) * v) t
     (- (n * n * (A * A * A) / (A * (1 - e * cos (F t)) * (A * (1 - e * cos (F t))) * (A * (1 - e * cos (F t))))) * (A * (cos (F t) - e) * u + A * b * sin (F t) * v))).
  { intros u v. apply (comp_derive (fun E => - (A * sin E * (n / (1 - e * cos E))) * u + A * b * cos E * (n / (1 - e * cos E)) * v) (- (n * (A * (cos (F t) - e) * u + A * b * sin (F t) * v)) / ((1 - e * cos (F t)) * (1 - e * cos (F t))))).
    - auto_derive; [lra|]. set (s := sin (F t)) in *. set (c := cos (F t)) in *. field_simplify_eq; [|lra]. ring [S].
    - field. repeat split; lra. }
  split; [|split]; apply C.
Qed.
End motion.

(* what the callback returns: an orbit of semi-major axis a / (1 - e) *)
Definition rate_of (a e mu : R) : R := sqrt (mu / (a / 1000 / (1 - e) * (a / 1000 / (1 - e)) * (a / 1000 / (1 - e)))).
Lemma rate_pos a e mu : 0 < a -> 0 <= e < 1 -> 0 < mu -> 0 < rate_of a e mu /\ rate_of a e mu * rate_of a e mu * (a / (1 - e) * (a / (1 - e)) * (a / (1 - e))) = mu * 10 ^ 9.
Proof.
  intros Ha He Hm. assert (X: 0 < a / 1000 / (1 - e)) by (apply Rdiv_lt_0_compat; [apply Rdiv_lt_0_compat|]; lra). set (k := a / 1000 / (1 - e)) in *. assert (Y: 0 < mu / (k * k * k)) by (apply Rdiv_lt_0_compat; [lra|]; apply Rmult_lt_0_compat; [apply Rmult_lt_0_compat|]; exact X).
  unfold rate_of. fold k. split; [apply sqrt_lt_R0; auto|]. rewrite sqrt_sqrt by lra. replace (a / (1 - e)) with (1000 * k) by (unfold k; field; lra). field. lra.
Qed.
Lemma orbit_value solver open a e i raan argp m0 epoch mu t : 0 < a -> 0 <= e < 1 -> 0 < mu -> let E := solver e (m0 + rate_of a e mu * (t - epoch)) in
  keplerian_orbit solver open a e i raan argp m0 epoch mu t = Ok (curve (a / (1 - e)) e (to_periapsis i raan argp) (ahead_of_it i raan argp) E, speed (a / (1 - e)) e (rate_of a e mu) (to_periapsis i raan argp) (ahead_of_it i raan argp) E).
Proof.
  intros Ha He Hm E. unfold keplerian_orbit, conics, conics_c, make_elements. cbn [el_rp el_ecc el_inc el_node el_argp el_m0 el_t0 el_mu].
  assert (X1: Rltb e 0 = false) by (apply Rltb_false; lra). assert (X2: Rleb (a / 1000) 0 = false) by (apply Rleb_false; lra). assert (X3: Rleb mu 0 = false) by (apply Rleb_false; lra). assert (X4: Rleb 1 e = false) by (apply Rleb_false; lra).
  rewrite X1, X2, X3, X4. cbn [orb obind fst snd]. fold (rate_of a e mu). fold E. destruct (kepler_den e E He) as (K & _).
  f_equal. f_equal; unfold curve, speed; apply v3_eq; cbn; field; lra.
Qed.

(* the node moves as a body under the gravity mu km^3/s^2 *)
Theorem C153_two_body : forall solver open a e i raan argp m0 epoch mu, solves solver -> 0 < a -> 0 <= e < 1 -> 0 < mu ->
  exists r v, (forall t, keplerian_orbit solver open a e i raan argp m0 epoch mu t = Ok (r t, v t)) /\ two_body (mu * 10 ^ 9) r v.
Proof.
  intros solver open a e i raan argp m0 epoch mu S Ha He Hm. destruct (frame_ok i raan argp) as (P & Q & O & _). destruct (rate_pos a e mu Ha He Hm) as (Hn & G). assert (HA: 0 < a / (1 - e)) by (apply Rdiv_lt_0_compat; lra).
  set (A := a / (1 - e)) in *. set (p := to_periapsis i raan argp) in *. set (q := ahead_of_it i raan argp) in *. set (n := rate_of a e mu) in *.
  set (F := fun t => solver e (m0 + n * (t - epoch))). exists (fun t => curve A e p q (F t)), (fun t => speed A e n p q (F t)).
  split; [intros t; apply orbit_value; auto|]. intros t. pose proof (anomaly_rate solver e m0 n epoch t S He Hn) as D. change (is_derive F t (n / (1 - e * cos (F t)))) in D.
  split; [rewrite curve_length by auto; destruct (kepler_den e (F t) He); nra|]. split; [apply curve_derive; auto|]. rewrite <- G. apply speed_derive; auto.
Qed.
(* in the plane asked for, turning the way asked for, with constant angular momentum *)
Theorem C153_plane : forall solver open a e i raan argp m0 epoch mu, 0 < a -> 0 <= e < 1 -> 0 < mu ->
  exists h, 0 < h /\ forall t r v, keplerian_orbit solver open a e i raan argp m0 epoch mu t = Ok (r, v) -> dot r (plane_normal i raan) = 0 /\ cross r v = vscale h (plane_normal i raan).
Proof.
  intros solver open a e i raan argp m0 epoch mu Ha He Hm. destruct (frame_ok i raan argp) as (P & Q & O & W). destruct (rate_pos a e mu Ha He Hm) as (Hn & _). assert (HA: 0 < a / (1 - e)) by (apply Rdiv_lt_0_compat; lra).
  exists (a / (1 - e) * (a / (1 - e)) * sqrt (1 - e * e) * rate_of a e mu). split. { assert (SB: 0 < sqrt (1 - e * e)) by (apply sqrt_lt_R0; nra). apply Rmult_lt_0_compat; [|exact Hn]. apply Rmult_lt_0_compat; [|exact SB]. apply Rmult_lt_0_compat; exact HA. }
  intros t r v E. rewrite orbit_value in E by auto. injection E as <- <-. set (E := solver e _). destruct (kepler_den e E He) as (K & _). rewrite <- W. set (p := to_periapsis i raan argp). set (q := ahead_of_it i raan argp).
  set (A := a / (1 - e)). set (b := sqrt (1 - e * e)). set (n := rate_of a e mu). split; [unfold curve, dot, cross, vadd, vscale; cbn; ring|]. unfold curve, speed. fold b.
  replace (cross _ _) with (vscale (A * (cos E - e) * (A * b * cos E * (n / (1 - e * cos E))) + A * b * sin E * (A * sin E * (n / (1 - e * cos E)))) (cross p q)) by (apply v3_eq; unfold cross, vadd, vscale; cbn; ring).
  f_equal. pose proof (sq E) as S. set (s := sin E) in *. set (c := cos E) in *. field_simplify_eq; [|lra]. ring [S].
Qed.
(* the mean anomaly m0 at the epoch says how long ago the node was at periapsis, which is in the direction asked for *)
Theorem C153_periapsis : forall solver open a e i raan argp m0 epoch mu, solves solver -> 0 < a -> 0 <= e < 1 -> 0 < mu ->
  exists n, 0 < n /\ n * n * (a / (1 - e) * (a / (1 - e)) * (a / (1 - e))) = mu * 10 ^ 9 /\
  exists v, keplerian_orbit solver open a e i raan argp m0 epoch mu (epoch - m0 / n) = Ok (vscale a (in_plane_direction i raan argp), v).
Proof.
  intros solver open a e i raan argp m0 epoch mu S Ha He Hm. destruct (rate_pos a e mu Ha He Hm) as (Hn & G). exists (rate_of a e mu). split; auto. split; auto.
  rewrite orbit_value by auto. eexists. do 2 f_equal. replace (m0 + rate_of a e mu * (epoch - m0 / rate_of a e mu - epoch)) with 0 by (field; lra).
  assert (Z: solver e 0 = 0). { apply (kepler_unique e); auto. rewrite (S e 0 He), sin_0. ring. } rewrite Z. unfold curve. rewrite cos_0, sin_0.
  assert (D: in_plane_direction i raan argp = to_periapsis i raan argp). { pose proof (sq raan) as Q. unfold in_plane_direction, to_periapsis, plane_normal. apply v3_eq; cbn [vx vy vz vadd vscale cross]; try ring. set (sr := sin raan) in *. set (cr := cos raan) in *. ring [Q]. }
  rewrite D. apply v3_eq; cbn; field; lra.
Qed.
(* a circular orbit has the radius, and the period, asked for *)
Lemma shift solver e M : solves solver -> 0 <= e < 1 -> solver e (M + 2 * PI) = solver e M + 2 * PI.
Proof.
  intros S He. apply (kepler_unique e); auto. rewrite (S e _ He). replace (solver e M + 2 * PI) with (solver e M + 2 * INR 1 * PI) by (cbn; ring). rewrite sin_period. pose proof (S e M He). cbn. lra.
Qed.
Lemma orbit_period solver open a e i raan argp m0 epoch mu t : solves solver -> 0 < a -> 0 <= e < 1 -> 0 < mu ->
  keplerian_orbit solver open a e i raan argp m0 epoch mu (t + 2 * PI / rate_of a e mu) = keplerian_orbit solver open a e i raan argp m0 epoch mu t.
Proof.
  intros S Ha He Hm. rewrite !orbit_value by auto. destruct (rate_pos a e mu Ha He Hm) as (Hn & _). replace (m0 + rate_of a e mu * (t + 2 * PI / rate_of a e mu - epoch)) with (m0 + rate_of a e mu * (t - epoch) + 2 * PI) by (field; lra).
  rewrite shift by auto. set (E := solver e _). unfold curve, speed. replace (E + 2 * PI) with (E + 2 * INR 1 * PI) by (cbn; ring). rewrite sin_period, cos_period. reflexivity.
Qed.
Theorem C153_circular : forall solver open a i raan argp m0 epoch mu, solves solver -> 0 < a -> 0 < mu ->
  let orbit := keplerian_orbit solver open a 0 i raan argp m0 epoch mu in
  (forall t r v, orbit t = Ok (r, v) -> vlen r = a) /\ (forall t, orbit (t + 2 * PI * sqrt (a * a * a / (mu * 10 ^ 9))) = orbit t).
Proof.
  intros solver open a i raan argp m0 epoch mu S Ha Hm orbit. unfold orbit. destruct (frame_ok i raan argp) as (P & Q & O & _). split.
  - intros t r v E. rewrite orbit_value in E by (auto; lra). injection E as <- _. rewrite curve_length by (auto; try lra; apply Rdiv_lt_0_compat; lra). field.
  - intros t. rewrite <- (orbit_period solver open a 0 i raan argp m0 epoch mu t) by (auto; lra). f_equal. f_equal. unfold Rdiv at 2. f_equal. unfold rate_of. assert (0 < a * a * a) by (repeat apply Rmult_lt_0_compat; auto).
    replace (mu / _) with (/ (a * a * a / (mu * 10 ^ 9))) by (field; repeat split; lra). rewrite <- sqrt_inv, Rinv_inv. reflexivity.
Qed.
(* values that are no ellipse at all are accepted by set_keplerian_orbit and throw whenever the node is looked at *)
Theorem C153_invalid : forall solver open a e i raan argp m0 epoch mu t, e < 0 \/ a <= 0 \/ mu <= 0 -> keplerian_orbit solver open a e i raan argp m0 epoch mu t = Throws.
Proof.
  intros solver open a e i raan argp m0 epoch mu t H. unfold keplerian_orbit, conics, conics_c, make_elements. cbn [el_rp el_ecc el_mu].
  assert (X: (Rltb e 0 || Rleb (a / 1000) 0 || Rleb mu 0)%bool = true). { destruct H as [H|[H|H]]. - apply Rltb_true in H. rewrite H. reflexivity. - assert (Q: Rleb (a / 1000) 0 = true) by (apply Rleb_true; lra). rewrite Q. destruct (Rltb e 0); reflexivity. - apply Rleb_true in H. rewrite H. destruct (Rltb e 0), (Rleb (a / 1000) 0); reflexivity. }
  rewrite X. reflexivity.
Qed.
Lemma kepler_increasing e x y : 0 <= e < 1 -> x < y -> x - e * sin x < y - e * sin y.
Proof. intros He H. pose proof (sin_lip x y) as L. rewrite (Rabs_right (y - x)) in L by lra. apply Rabs_le_between in L. nra. Qed.
(* full statement: the distance runs from a (1 - e) to a (1 + e). Refuted for every eccentric orbit: it runs from a to a (1 + e) / (1 - e), since conics_c takes its first
   element for the periapsis distance; the node is never where the orbit asked for has its periapsis *)
Theorem C153_refuted_size : forall solver open a e i raan argp m0 epoch mu, solves solver -> 0 < a -> 0 < e < 1 -> 0 < mu ->
  let orbit := keplerian_orbit solver open a e i raan argp m0 epoch mu in
  (forall t r v, orbit t = Ok (r, v) -> a <= vlen r <= a * (1 + e) / (1 - e) /\ vlen r <> a * (1 - e)) /\
  (exists t r v, orbit t = Ok (r, v) /\ vlen r = a) /\ (exists t r v, orbit t = Ok (r, v) /\ vlen r = a * (1 + e) / (1 - e)).
Proof.
  intros solver open a e i raan argp m0 epoch mu S Ha He Hm orbit. unfold orbit. assert (He': 0 <= e < 1) by lra. destruct (frame_ok i raan argp) as (P & Q & O & _). destruct (rate_pos a e mu Ha He' Hm) as (Hn & _). assert (HA: 0 < a / (1 - e)) by (apply Rdiv_lt_0_compat; lra).
  assert (V: forall t, keplerian_orbit solver open a e i raan argp m0 epoch mu t = Ok (curve (a / (1 - e)) e (to_periapsis i raan argp) (ahead_of_it i raan argp) (solver e (m0 + rate_of a e mu * (t - epoch))), speed (a / (1 - e)) e (rate_of a e mu) (to_periapsis i raan argp) (ahead_of_it i raan argp) (solver e (m0 + rate_of a e mu * (t - epoch))))) by (intros t; apply orbit_value; auto).
  assert (At: forall M x, x - e * sin x = M -> exists t r v, keplerian_orbit solver open a e i raan argp m0 epoch mu t = Ok (r, v) /\ vlen r = a / (1 - e) * (1 - e * cos x)).
  { intros M x X. exists (epoch + (M - m0) / rate_of a e mu). do 2 eexists. split; [apply V|]. rewrite curve_length by auto. replace (m0 + rate_of a e mu * (epoch + (M - m0) / rate_of a e mu - epoch)) with M by (field; lra).
    assert (Z: solver e M = x) by (apply (kepler_unique e); auto; rewrite S; auto). rewrite Z. reflexivity. }
  split; [|split].
  - intros t r v E. rewrite V in E. injection E as <- _. rewrite curve_length by auto. destruct (kepler_den e (solver e (m0 + rate_of a e mu * (t - epoch))) He') as (K1 & K2). set (x := 1 - e * cos _) in *.
    assert (L: a <= a / (1 - e) * x). { replace a with (a / (1 - e) * (1 - e)) at 1 by (field; lra). apply Rmult_le_compat_l; lra. }
    split; [split; auto|nra]. replace (a * (1 + e) / (1 - e)) with (a / (1 - e) * (1 + e)) by (field; lra). apply Rmult_le_compat_l; lra.
  - destruct (At 0 0) as (t & r & v & E & L); [rewrite sin_0; ring|]. exists t, r, v. split; auto. rewrite L, cos_0. field. lra.
  - destruct (At PI PI) as (t & r & v & E & L); [rewrite sin_PI; ring|]. exists t, r, v. split; auto. rewrite L, cos_PI. field. lra.
Qed.
(* full statement: the period is 2 pi sqrt (a^3 / G). Refuted for every eccentric orbit: after that time the node is not back *)
Theorem C153_refuted_period : forall solver open a e i raan argp epoch mu, solves solver -> 0 < a -> 0 < e < 1 -> 0 < mu ->
  let orbit := keplerian_orbit solver open a e i raan argp 0 epoch mu in orbit (epoch + 2 * PI * sqrt (a * a * a / (mu * 10 ^ 9))) <> orbit epoch.
Proof.
  intros solver open a e i raan argp epoch mu S Ha He Hm orbit C. unfold orbit in C. assert (He': 0 <= e < 1) by lra. destruct (frame_ok i raan argp) as (P & Q & O & _). destruct (rate_pos a e mu Ha He' Hm) as (Hn & G). assert (HA: 0 < a / (1 - e)) by (apply Rdiv_lt_0_compat; lra).
  rewrite !orbit_value in C by auto. apply (f_equal (fun o => match o with Ok (r, _) => vlen r | _ => 0 end)) in C. cbv beta iota in C. rewrite !curve_length in C by auto. replace (0 + rate_of a e mu * (epoch - epoch)) with 0 in C by ring.
  assert (Z: solver e 0 = 0) by (apply (kepler_unique e); auto; rewrite (S e 0 He'), sin_0; ring). rewrite Z, cos_0 in C.
  set (T := sqrt (a * a * a / (mu * 10 ^ 9))) in *. set (M := 0 + rate_of a e mu * (epoch + 2 * PI * T - epoch)) in *. assert (CE: cos (solver e M) = 1). { apply Rmult_eq_reg_l in C; [|lra]. nra. }
  assert (A3: 0 < a * a * a) by (apply Rmult_lt_0_compat; [apply Rmult_lt_0_compat|]; auto). assert (TQ: 0 < a * a * a / (mu * 10 ^ 9)) by (apply Rdiv_lt_0_compat; lra). assert (TP: 0 < T) by (apply sqrt_lt_R0; auto). assert (TT: T * T = a * a * a / (mu * 10 ^ 9)) by (apply sqrt_sqrt; lra).
  assert (K: (rate_of a e mu * T) * (rate_of a e mu * T) = (1 - e) * (1 - e) * (1 - e)).
  { replace (rate_of a e mu * T * (rate_of a e mu * T)) with (rate_of a e mu * rate_of a e mu * (T * T)) by ring. rewrite TT, <- G. field. repeat split; lra. }
  assert (KP: 0 < rate_of a e mu * T) by (apply Rmult_lt_0_compat; auto). assert (KL: rate_of a e mu * T < 1). { assert ((1 - e) * (1 - e) * (1 - e) < 1) by nra. nra. }
  pose proof PI_RGT_0 as PP. assert (MB: 0 < M < 2 * PI) by (unfold M; replace (0 + rate_of a e mu * (epoch + 2 * PI * T - epoch)) with (2 * PI * (rate_of a e mu * T)) by ring; nra).
  pose proof (S e M He') as SM. set (x := solver e M) in *. assert (X0: 0 < x). { destruct (Rtotal_order 0 x) as [|[E|L]]; auto; exfalso. - rewrite <- E, sin_0 in SM. lra. - pose proof (kepler_increasing e x 0 He' L) as I. rewrite sin_0 in I. lra. }
  assert (X1: x < 2 * PI). { destruct (Rtotal_order x (2 * PI)) as [|[E|L]]; auto; exfalso. - rewrite E, sin_2PI in SM. lra. - pose proof (kepler_increasing e (2 * PI) x He' L) as I. rewrite sin_2PI in I. lra. }
  assert (SH: 0 < sin (x / 2)) by (apply sin_gt_0; lra). replace x with (2 * (x / 2)) in CE by field. rewrite cos_2a_sin in CE. nra.
Qed.
(* an orbit that meets the hypotheses, and a solver that exists *)
Example C153_case : exists solver, solves solver /\ 0 < 7000000 /\ 0 < 1 / 10 < 1 /\ 0 < 398600.
Proof. exists some_solver. split; [apply some_solver_ok|lra]. Qed.
