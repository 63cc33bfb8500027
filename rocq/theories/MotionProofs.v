(* Lemmas about node states over time (C110-C112). *)
From Verif Require Import Vec3 TransformModel TransformSpec TransformProofs TransformProps SpectralModel MotionModel LightTimeProps.
From Coq Require Import String.
From Coquelicot Require Import Coquelicot.
Open Scope R_scope.

(* v turned for a time T at the constant rate omega (radians per second about its own direction) *)
Definition spun (omega : vec3) (T : R) (v : vec3) : vec3 := turned (normalize omega) (vlen omega * T) v.

Lemma vlen_zero : vlen vzero = 0. Proof. unfold vlen, dot; cbn. replace (0 * 0 + 0 * 0 + 0 * 0) with 0 by ring. apply sqrt_0. Qed.
Lemma vlen_pos v : v <> vzero -> 0 < vlen v.
Proof. intros H. apply sqrt_lt_R0. destruct (Rtotal_order (dot v v) 0) as [L|[L|L]]; auto; [pose proof (dot_pos v); lra|]. apply dot_zero in L. contradiction. Qed.
Lemma normalize_scale v : v <> vzero -> vscale (vlen v) (normalize v) = v.
Proof. intros H. pose proof (vlen_pos v H). unfold normalize. apply v3_eq; cbn; field; lra. Qed.
Lemma spun_zero T v : spun vzero T v = v.
Proof. unfold spun. rewrite turned_formula, vlen_zero, Rmult_0_l, cos_0, sin_0. vec. Qed.
Lemma turned_len n a v : dot n n = 1 -> vlen (turned n a v) = vlen v.
Proof. intros N. destruct (rodrigues_rotation n a N) as (D & _). unfold vlen. f_equal. rewrite turned_formula, <- rodrigues_turned, D. auto. Qed.
Lemma one_minus_cos a : 2 * (1 - cos a) <= a * a.
Proof.
  replace (1 - cos a) with (2 * (sin (a / 2) * sin (a / 2))).
  2:{ replace a with (2 * (a / 2)) at 3 by field. rewrite cos_2a_sin. ring. }
  assert (H : Rabs (sin (a / 2)) <= Rabs (a / 2)).
  { assert (P : forall x, 0 <= x -> Rabs (sin x) <= x).
    { intros x Hx. destruct (Req_dec x 0) as [->|N]; [rewrite sin_0, Rabs_R0; lra|]. apply Rabs_le. split; [|apply Rlt_le, sin_lt_x; lra].
      destruct (Rle_dec x PI) as [L|L]; [pose proof (sin_ge_0 x Hx L); lra|]. pose proof (SIN_bound x). pose proof PI2_1. lra. }
    destruct (Rle_dec 0 (a / 2)) as [S|S]; [rewrite (Rabs_pos_eq (a / 2)) by lra; apply P; lra|]. rewrite (Rabs_left (a / 2)) by lra. rewrite <- Rabs_Ropp, <- sin_neg. apply P. lra. }
  pose proof (Rabs_pos (sin (a / 2))). assert (E : Rabs (sin (a / 2)) * Rabs (sin (a / 2)) = sin (a / 2) * sin (a / 2)) by (rewrite <- Rabs_mult; apply Rabs_pos_eq; nra).
  assert (F : Rabs (a / 2) * Rabs (a / 2) = a / 2 * (a / 2)) by (rewrite <- Rabs_mult; apply Rabs_pos_eq; nra). nra.
Qed.
Lemma turned_near n a v : dot n n = 1 -> vlen (vsub (turned n a v) v) <= Rabs a * vlen v.
Proof.
  intros N. rewrite <- (Rabs_pos_eq (vlen v)) by apply vlen_nonneg. rewrite <- Rabs_mult, <- sqrt_Rsqr_abs. unfold vlen at 1. apply sqrt_le_1_alt. unfold Rsqr. replace (a * vlen v * (a * vlen v)) with (a * a * (vlen v * vlen v)) by ring. rewrite vlen_sq.
  set (k := dot n v). assert (E : dot (vsub (turned n a v) v) (vsub (turned n a v) v) = 2 * (1 - cos a) * (dot v v - k * k)).
  { rewrite turned_formula. fold k. pose proof (cs a) as CS. pose proof (lagrange n v) as L. fold k in L. rewrite N in L.
    assert (X : dot (vsub (vadd (vadd (vscale (cos a) v) (vscale (sin a) (cross n v))) (vscale ((1 - cos a) * k) n)) v) (vsub (vadd (vadd (vscale (cos a) v) (vscale (sin a) (cross n v))) (vscale ((1 - cos a) * k) n)) v) =
      (1 - cos a) * (1 - cos a) * (dot v v - 2 * k * k + k * k * dot n n) + sin a * sin a * dot (cross n v) (cross n v)).
    { unfold k, dot; cbn; ring. } rewrite X, L, N. replace (sin a * sin a) with (1 - cos a * cos a) by lra. ring. }
  rewrite E. pose proof (one_minus_cos a). assert (0 <= dot v v - k * k) by (pose proof (lagrange n v) as L; rewrite N in L; fold k in L; pose proof (dot_pos (cross n v)); lra). assert (0 <= 1 - cos a) by (pose proof (COS_bound a); lra). pose proof (dot_pos v). nra.
Qed.

(* the local rotation of a manual node *)
Definition near (d : R) (f g : vec3 -> vec3) : Prop := forall v, vlen (vsub (f v) (g v)) <= d * vlen v.
Lemma mapply_len m v : is_rotation m -> vlen (mapply m v) = vlen v. Proof. intros (D & _). unfold vlen. rewrite D. auto. Qed.
Lemma local_rotation_exact eps n epoch t dt : 0 < eps <= 1 -> is_rotation (t_rot (m_local n)) -> let T := t - dt - epoch in let w := t_ang (m_local n) in
  exists r, local_rotation_at eps n epoch t dt = Ok (r, w) /\ is_rotation r /\
   (/ 10 ^ 12 <= Rabs (vlen w * T) \/ w = vzero -> forall v, mapply r v = if m_body n then mapply (t_rot (m_local n)) (spun w T v) else spun w T (mapply (t_rot (m_local n)) v)) /\
   (Rabs (vlen w * T) < / 10 ^ 12 -> r = t_rot (m_local n)).
Proof.
  intros HE HR. cbv zeta. unfold local_rotation_at. set (T := t - dt - epoch). set (w := t_ang (m_local n)). assert (P : 0 < / 10 ^ 12) by (apply Rinv_0_lt_compat, pow_lt; lra). destruct (Rltb _ _) eqn:E; rb.
  - eexists. split; [reflexivity|]. split; [exact HR|]. split; [|auto]. intros [H|H] v; [lra|]. rewrite H, !spun_zero. destruct (m_body n); auto.
  - assert (W : w <> vzero). { intros Z. rewrite Z, vlen_zero, Rmult_0_l, Rabs_R0 in E. lra. }
    assert (N : dot (normalize w) (normalize w) = 1) by (apply normalize_unit; auto). assert (L : vlen (normalize w) = 1) by (unfold vlen; rewrite N; apply sqrt_1).
    destruct (C50_axis_angle eps (normalize w) (vlen w * T)) as (d & D1 & D2); [lra|lra|]. rewrite D1. cbn [obind]. rewrite L in D2. replace (vscale (/ 1) (normalize w)) with (normalize w) in D2 by (rewrite Rinv_1; vec).
    assert (RD : is_rotation d) by (eapply turned_rotation; eauto).
    destruct (m_body n); unfold rot_mul; rewrite set_matrix_id by (apply mmul_rotation; auto); cbn [obind]; eexists; (split; [reflexivity|]); (split; [apply mmul_rotation; auto|]); (split; [|intros; lra]); intros _ v; rewrite mapply_mmul, D2; reflexivity.
Qed.
Lemma local_rotation_near eps n epoch t dt : 0 < eps <= 1 -> is_rotation (t_rot (m_local n)) -> let T := t - dt - epoch in let w := t_ang (m_local n) in
  exists r, local_rotation_at eps n epoch t dt = Ok (r, w) /\ is_rotation r /\ near (/ 10 ^ 12) (mapply r) (fun v => if m_body n then mapply (t_rot (m_local n)) (spun w T v) else spun w T (mapply (t_rot (m_local n)) v)).
Proof.
  intros HE HR. destruct (local_rotation_exact eps n epoch t dt HE HR) as (r & E1 & E2 & E3 & E4). cbv zeta in *. set (T := t - dt - epoch) in *. set (w := t_ang (m_local n)) in *. exists r. split; auto. split; auto. intros v.
  assert (P : 0 < / 10 ^ 12) by (apply Rinv_0_lt_compat, pow_lt; lra). destruct (Rlt_dec (Rabs (vlen w * T)) (/ 10 ^ 12)) as [L|L].
  - destruct (Req_EM_T (dot w w) 0) as [Z|Z].
    + apply dot_zero in Z. rewrite E3 by auto. replace (vsub _ _) with vzero by vec. rewrite vlen_zero. pose proof (vlen_nonneg v). nra.
    + rewrite E4 by auto. assert (W : w <> vzero). { intros Q. apply Z. rewrite Q. unfold dot; cbn; ring. } assert (N : dot (normalize w) (normalize w) = 1) by (apply normalize_unit; auto).
      pose proof (vlen_nonneg v). destruct (m_body n).
      * rewrite <- mapply_sub, mapply_len, vsub_swap by auto. eapply Rle_trans; [apply turned_near; auto|]. nra.
      * rewrite vsub_swap. eapply Rle_trans; [apply turned_near; auto|]. rewrite mapply_len by auto. nra.
  - rewrite E3 by (left; lra). replace (vsub _ _) with vzero by vec. rewrite vlen_zero. pose proof (vlen_nonneg v). nra.
Qed.

(* derivatives *)
Lemma vderive_loc f g t a : locally t (fun x => f x = g x) -> vderive f t a -> vderive g t a.
Proof.
  intros E (A & B & C). split; [|split]; (eapply is_derive_ext_loc; [|eassumption]); (eapply filter_imp; [|exact E]); intros x Hx; cbn; rewrite Hx; reflexivity.
Qed.
Lemma vderive_turned n w e t v : dot n n = 1 -> vderive (fun x => turned n (w * (x - e)) v) t (cross (vscale w n) (turned n (w * (t - e)) v)).
Proof.
  intros N.
  eapply vderive_ext; [intros x; symmetry; apply turned_formula|].
  apply (vderive_eq _ _ (vadd (vadd (vscale (- w * sin (w * (t - e))) v) (vscale (w * cos (w * (t - e))) (cross n v))) (vscale (w * sin (w * (t - e)) * dot n v) n))).
  { rewrite turned_formula. set (c := cos _). set (s := sin _). set (k := dot n v). assert (X : cross n (cross n v) = vsub (vscale k n) v). { rewrite cross_cross, N. fold k. vec. }
    assert (Y : cross (vscale w n) (vadd (vadd (vscale c v) (vscale s (cross n v))) (vscale ((1 - c) * k) n)) = vadd (vscale (w * c) (cross n v)) (vscale (w * s) (cross n (cross n v)))) by (apply v3_eq; cbn; ring).
    rewrite Y, X. vec. }
  assert (G : forall a b c, is_derive (fun x => cos (w * (x - e)) * a + sin (w * (x - e)) * b + (1 - cos (w * (x - e))) * c) t (- w * sin (w * (t - e)) * a + w * cos (w * (t - e)) * b + w * sin (w * (t - e)) * c)) by (intros; auto_derive; auto; unfold Rminus; ring).
  split; [|split]; cbn.
  - eapply is_derive_ext; [|eapply D_eq; [|apply (G (vx v) (vy n * vz v - vz n * vy v) (dot n v * vx n))]]; [intros; cbn; ring|cbn; ring].
  - eapply is_derive_ext; [|eapply D_eq; [|apply (G (vy v) (vz n * vx v - vx n * vz v) (dot n v * vy n))]]; [intros; cbn; ring|cbn; ring].
  - eapply is_derive_ext; [|eapply D_eq; [|apply (G (vz v) (vx n * vy v - vy n * vx v) (dot n v * vz n))]]; [intros; cbn; ring|cbn; ring].
Qed.
Lemma vderive_spun w e t v : vderive (fun x => spun w (x - e) v) t (cross w (spun w (t - e) v)).
Proof.
  destruct (Req_EM_T (dot w w) 0) as [Z|Z].
  - apply dot_zero in Z. subst w. eapply vderive_ext; [intros x; symmetry; apply spun_zero|]. eapply vderive_eq; [|apply vderive_const]. vec.
  - assert (W : w <> vzero). { intros Q. apply Z. rewrite Q. unfold dot; cbn; ring. } unfold spun. eapply vderive_eq; [|apply vderive_turned, normalize_unit, W]. rewrite normalize_scale by auto. reflexivity.
Qed.
Lemma vderive_lin p v e t : vderive (fun x => vadd p (vscale (x - e) v)) t v.
Proof. split; [|split]; cbn; auto_derive; auto; ring. Qed.
Lemma vderive_unique f t a b : vderive f t a -> vderive f t b -> a = b.
Proof.
  intros (A & B & C) (A' & B' & C'). apply is_derive_unique in A, B, C, A', B', C'. apply v3_eq; congruence.
Qed.
Lemma vderive_mat m f t a : vderive f t a -> vderive (fun x => mapply m (f x)) t (mapply m a).
Proof.
  intros (A & B & C). assert (K : forall a1 a2 a3, is_derive (fun x => vx (f x) * a1 + vy (f x) * a2 + vz (f x) * a3) t (vx a * a1 + vy a * a2 + vz a * a3)).
  { intros. apply D_plus; [apply D_plus|]; (eapply D_eq; [|apply D_mult; [eassumption|apply D_const]]); cbn; ring. }
  split; [|split]; cbn; apply K.
Qed.
