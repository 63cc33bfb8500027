From Verif Require Import Vec3 DistortionModel DistortionSpec.

(* ---- the Euclidean norm ---- *)
Lemma plen_sq p : plen p * plen p = fst p * fst p + snd p * snd p.
Proof. unfold plen. apply sqrt_sqrt. nra. Qed.
Lemma plen_pos p : 0 <= plen p. Proof. apply sqrt_pos. Qed.
Lemma plen_le p k : 0 <= k -> fst p * fst p + snd p * snd p <= k * k -> plen p <= k.
Proof. intros H H1. rewrite <- (sqrt_square k) by auto. apply sqrt_le_1; nra. Qed.
Lemma plen_lt_iff p k : 0 <= k -> plen p < k <-> fst p * fst p + snd p * snd p < k * k.
Proof. intros H. pose proof (plen_sq p). pose proof (plen_pos p). split; intros.
  - nra.
  - destruct (Rlt_dec (plen p) k); auto. exfalso. nra. Qed.
Lemma cs2 a b c d : (a * c + b * d) * (a * c + b * d) <= (a * a + b * b) * (c * c + d * d).
Proof. pose proof (Rle_0_sqr (a * d - b * c)) as H. unfold Rsqr in H. lra. Qed.
Lemma plen_add p q : plen (padd p q) <= plen p + plen q.
Proof.
  pose proof (plen_sq p) as Hp. pose proof (plen_sq q) as Hq.
  pose proof (plen_pos p). pose proof (plen_pos q).
  apply plen_le; [lra|]. destruct p as [a b], q as [c d]. cbn [fst snd padd] in *.
  pose proof (cs2 a b c d) as Hcs. rewrite <- Hp, <- Hq in Hcs.
  assert (a * c + b * d <= plen (a, b) * plen (c, d)).
  { destruct (Rle_dec (a * c + b * d) 0); [nra|]. apply Rsqr_incr_0_var; [unfold Rsqr; nra | nra]. }
  nra.
Qed.
Lemma plen_scale k p : plen (pscale k p) = Rabs k * plen p.
Proof.
  unfold plen, pscale. cbn [fst snd].
  replace (k * fst p * (k * fst p) + k * snd p * (k * snd p)) with (Rsqr k * (fst p * fst p + snd p * snd p)) by (unfold Rsqr; ring).
  rewrite sqrt_mult; [| apply Rle_0_sqr | nra]. rewrite sqrt_Rsqr_abs. reflexivity.
Qed.
Lemma plen_fst p : Rabs (fst p) <= plen p.
Proof. pose proof (plen_sq p). pose proof (plen_pos p). apply Rabs_le. nra. Qed.
Lemma plen_snd p : Rabs (snd p) <= plen p.
Proof. pose proof (plen_sq p). pose proof (plen_pos p). apply Rabs_le. nra. Qed.
Lemma plen_0 p : plen p = 0 -> p = (0, 0).
Proof. intros H. pose proof (plen_sq p) as E. rewrite H in E. destruct p as [x y]; cbn [fst snd] in *.
  assert (x = 0) by nra. assert (y = 0) by nra. subst; reflexivity. Qed.
Lemma plen_zero : plen (0, 0) = 0.
Proof. unfold plen; cbn. rewrite Rmult_0_l, Rplus_0_l. apply sqrt_0. Qed.
Lemma pix_eq (p q : pixel) : fst p = fst q -> snd p = snd q -> p = q.
Proof. destruct p, q; cbn; intros; subst; reflexivity. Qed.
Lemma pdist_sym p q : pdist p q = pdist q p.
Proof. unfold pdist, plen, psub; cbn. f_equal. ring. Qed.
Lemma pdist_pos p q : 0 <= pdist p q. Proof. apply plen_pos. Qed.
Lemma pdist_0 p q : pdist p q = 0 -> p = q.
Proof. intros H. apply plen_0 in H. unfold psub in H. inversion H. apply pix_eq; lra. Qed.
Lemma pdist_tri p q r : pdist p r <= pdist p q + pdist q r.
Proof. unfold pdist. replace (psub p r) with (padd (psub p q) (psub q r)); [apply plen_add|].
  apply pix_eq; unfold padd, psub; cbn; ring. Qed.
Lemma plen_pdist p q : plen p <= plen q + pdist p q.
Proof. unfold pdist. replace p with (padd q (psub p q)) at 1; [apply plen_add|].
  apply pix_eq; unfold padd, psub; cbn; ring. Qed.
Lemma plen_diff p q : Rabs (plen p - plen q) <= pdist p q.
Proof. pose proof (plen_pdist p q). pose proof (plen_pdist q p). rewrite (pdist_sym q p) in *. apply Rabs_le. lra. Qed.
Lemma pdist_0r p : pdist p (0, 0) = plen p.
Proof. unfold pdist. f_equal. apply pix_eq; unfold psub; cbn; ring. Qed.
Lemma pdist_psub h a b : pdist (psub h a) (psub h b) = pdist a b.
Proof. unfold pdist, plen, psub; cbn. f_equal. ring. Qed.

(* ---- sums and scalings of Lipschitz maps ---- *)
Lemma lip_add f g rho L M : lipschitz_on f rho L -> lipschitz_on g rho M ->
  lipschitz_on (fun p => padd (f p) (g p)) rho (L + M).
Proof.
  intros Hf Hg p q Hp Hq. specialize (Hf p q Hp Hq). specialize (Hg p q Hp Hq).
  replace (pdist (padd (f p) (g p)) (padd (f q) (g q))) with (plen (padd (psub (f p) (f q)) (psub (g p) (g q)))).
  - eapply Rle_trans; [apply plen_add|]. unfold pdist in *. lra.
  - unfold pdist. f_equal. apply pix_eq; unfold padd, psub; cbn; ring.
Qed.
Lemma lip_scale k f rho L : lipschitz_on f rho L -> lipschitz_on (fun p => pscale k (f p)) rho (Rabs k * L).
Proof.
  intros Hf p q Hp Hq. specialize (Hf p q Hp Hq).
  replace (pdist (pscale k (f p)) (pscale k (f q))) with (plen (pscale k (psub (f p) (f q)))).
  - rewrite plen_scale. unfold pdist in *. pose proof (Rabs_pos k). nra.
  - unfold pdist. f_equal. apply pix_eq; unfold pscale, psub; cbn; ring.
Qed.
Lemma lip_ext f g rho L : (forall p, f p = g p) -> lipschitz_on f rho L -> lipschitz_on g rho L.
Proof. intros E Hf p q Hp Hq. rewrite <- !E. auto. Qed.
Lemma lip_weaken f rho L M : L = M -> lipschitz_on f rho L -> lipschitz_on f rho M.
Proof. intros ->; auto. Qed.
(* product of a bounded Lipschitz scalar and the identity *)
Lemma lip_factor (s : pixel -> R) rho B K : 0 <= rho ->
  (forall p, plen p <= rho -> Rabs (s p) <= B) ->
  (forall p q, plen p <= rho -> plen q <= rho -> Rabs (s p - s q) <= K * pdist p q) -> 0 <= K ->
  lipschitz_on (fun p => pscale (s p) p) rho (B + K * rho).
Proof.
  intros Hr HB HK K0 p q Hp Hq.
  replace (pdist (pscale (s p) p) (pscale (s q) q)) with (plen (padd (pscale (s p) (psub p q)) (pscale (s p - s q) q))).
  - eapply Rle_trans; [apply plen_add|]. rewrite !plen_scale.
    specialize (HB p Hp). specialize (HK p q Hp Hq). pose proof (pdist_pos p q) as D.
    fold (pdist p q). pose proof (plen_pos q). pose proof (Rabs_pos (s p - s q)).
    assert (Rabs (s p) * pdist p q <= B * pdist p q) by nra.
    assert (Rabs (s p - s q) * plen q <= (K * pdist p q) * rho) by (apply Rmult_le_compat; lra). nra.
  - unfold pdist. f_equal. apply pix_eq; unfold pscale, padd, psub; cbn; ring.
Qed.
(* the same for the quarter-turned identity *)
Definition rot90 (p : pixel) : pixel := (- snd p, fst p).
Lemma lip_rot f rho L : lipschitz_on f rho L -> lipschitz_on (fun p => rot90 (f p)) rho L.
Proof.
  intros Hf p q Hp Hq. specialize (Hf p q Hp Hq). unfold pdist, plen, rot90, psub in *. cbn [fst snd] in *.
  match goal with H : sqrt ?a <= _ |- sqrt ?b <= _ => replace b with a by ring end. exact Hf.
Qed.

Definition rn (p : pixel) := plen p.
Lemma pow_lip n : forall a b rho, 0 <= a <= rho -> 0 <= b <= rho ->
  Rabs (a ^ n - b ^ n) <= INR n * rho ^ (n - 1) * Rabs (a - b).
Proof.
  induction n as [|n IH]; intros a b rho Ha Hb.
  - cbn. rewrite Rminus_eq_0, Rabs_R0. pose proof (Rabs_pos (a - b)). nra.
  - replace (a ^ S n - b ^ S n) with (a * (a ^ n - b ^ n) + (a - b) * b ^ n) by (cbn; ring).
    eapply Rle_trans; [apply Rabs_triang|]. rewrite !Rabs_mult, (Rabs_pos_eq a), (Rabs_pos_eq (b ^ n)) by (try lra; apply pow_le; lra).
    assert (b ^ n <= rho ^ n) by (apply pow_incr; lra).
    pose proof (IH a b rho Ha Hb) as H1. pose proof (Rabs_pos (a - b)). pose proof (Rabs_pos (a ^ n - b ^ n)).
    replace (S n - 1)%nat with n by lia. rewrite S_INR.
    assert (a * Rabs (a ^ n - b ^ n) <= INR n * rho ^ n * Rabs (a - b)).
    { destruct n as [|n]; [cbn in *; rewrite Rminus_eq_0, Rabs_R0; nra|].
      replace (S n - 1)%nat with n in H1 by lia. change (rho ^ S n) with (rho * rho ^ n).
      apply Rle_trans with (rho * (INR (S n) * rho ^ n * Rabs (a - b))); [apply Rmult_le_compat; lra | right; ring]. }
    assert (Rabs (a - b) * b ^ n <= rho ^ n * Rabs (a - b)) by nra. lra.
Qed.
Lemma lip_radial n rho : 0 <= rho -> (0 < n)%nat -> lipschitz_on (fun p => pscale (plen p ^ n) p) rho (INR (S n) * rho ^ n).
Proof.
  intros Hr Hn. apply (lip_weaken _ _ (rho ^ n + (INR n * rho ^ (n - 1)) * rho)).
  - rewrite S_INR. destruct n; [lia|]. replace (S n - 1)%nat with n by lia. cbn [pow]. ring.
  - apply lip_factor; auto.
    + intros p Hp. rewrite Rabs_pos_eq by (apply pow_le, plen_pos). apply pow_incr. split; auto. apply plen_pos.
    + intros p q Hp Hq. eapply Rle_trans; [apply (pow_lip n _ _ rho)|]; try (split; auto; apply plen_pos).
      apply Rmult_le_compat_l; [|apply plen_diff]. apply Rmult_le_pos; [apply pos_INR | apply pow_le; auto].
    + apply Rmult_le_pos; [apply pos_INR | apply pow_le; auto].
Qed.
Lemma lip_coord (s : pixel -> R) rho : 0 <= rho -> (s = fst \/ s = snd) -> lipschitz_on (fun p => pscale (s p) p) rho (2 * rho).
Proof.
  intros Hr Hs. apply (lip_weaken _ _ (rho + 1 * rho)); [ring|]. apply lip_factor; try lra; destruct Hs; subst s; intros.
  - eapply Rle_trans; [apply plen_fst|auto].
  - eapply Rle_trans; [apply plen_snd|auto].
  - rewrite Rmult_1_l. apply (plen_fst (psub p q)).
  - rewrite Rmult_1_l. apply (plen_snd (psub p q)).
Qed.

(* the tangential terms *)
Definition tang1 (p : pixel) : pixel := (2 * (fst p * snd p), fst p * fst p + 3 * (snd p * snd p)).
Definition tang2 (p : pixel) : pixel := (3 * (fst p * fst p) + snd p * snd p, 2 * (fst p * snd p)).
Lemma plen_le_mul v a b : 0 <= a -> 0 <= b -> fst v * fst v + snd v * snd v <= (a * a) * (b * b) -> plen v <= a * b.
Proof. intros Ha Hb H. apply plen_le; [nra|]. replace (a * b * (a * b)) with ((a * a) * (b * b)) by ring. exact H. Qed.
Lemma lip_tang1 rho : 0 <= rho -> lipschitz_on tang1 rho (6 * rho).
Proof.
  intros Hr p q Hp Hq.
  (* tang1 p - tang1 q is the Jacobian at the midpoint m applied to d = p - q *)
  assert (exists m, m = pscale (/ 2) (padd p q)) as (m & Em) by eauto.
  assert (exists d, d = psub p q) as (d & Ed) by eauto.
  assert (Hm : plen m <= rho).
  { rewrite Em, plen_scale, Rabs_pos_eq by lra. pose proof (plen_add p q). lra. }
  assert (E : psub (tang1 p) (tang1 q)
    = pscale 2 (padd (- snd m * fst d + fst m * snd d, fst m * fst d + snd m * snd d) (pscale (2 * snd m) d))).
  { rewrite Em, Ed. unfold psub, tang1, padd, pscale. destruct p as [a b], q as [c e]. apply pix_eq; cbn [fst snd]; field. }
  unfold pdist. rewrite E, <- Ed, plen_scale, Rabs_pos_eq by lra.
  pose proof (plen_snd m) as S. pose proof (plen_pos d) as Dp. pose proof (plen_pos m) as Mp.
  pose proof (plen_sq m) as Ms. pose proof (plen_sq d) as Ds.
  match goal with |- _ * plen (padd ?a ?b) <= _ => pose proof (plen_add a b) as T;
    assert (A : plen a <= plen m * plen d);
    [ apply plen_le_mul; auto; cbn [fst snd]; rewrite Ms, Ds; right; ring
    | assert (B : plen b <= 2 * plen m * plen d) ] end.
  { rewrite plen_scale, Rabs_mult, (Rabs_pos_eq 2) by lra. apply Rmult_le_compat_r; lra. }
  assert (plen m * plen d <= rho * plen d) by (apply Rmult_le_compat_r; lra). lra.
Qed.
Lemma lip_tang2 rho : 0 <= rho -> lipschitz_on tang2 rho (6 * rho).
Proof.
  intros Hr p q Hp Hq.
  pose proof (lip_tang1 rho Hr (snd p, fst p) (snd q, fst q)) as H.
  assert (W : forall r, plen (snd r, fst r) = plen r) by (intros r; unfold plen; cbn [fst snd]; f_equal; ring).
  rewrite !W in H. specialize (H Hp Hq).
  assert (E : forall a b, pdist (snd a, fst a) (snd b, fst b) = pdist a b)
    by (intros a b; unfold pdist, plen, psub; cbn [fst snd]; f_equal; ring).
  rewrite E in H. rewrite <- (E (tang2 p)). eapply Rle_trans; [|exact H]. right. f_equal; unfold tang1, tang2; cbn [fst snd]; f_equal; ring.
Qed.

Lemma plen_pow2 p : plen p ^ 2 = fst p * fst p + snd p * snd p.
Proof. rewrite <- plen_sq. ring. Qed.
Lemma plen_pow4 p : plen p ^ 4 = (fst p * fst p + snd p * snd p) * (fst p * fst p + snd p * snd p).
Proof. rewrite <- plen_sq. ring. Qed.
Lemma plen_pow6 p : plen p ^ 6 = (fst p * fst p + snd p * snd p) * (fst p * fst p + snd p * snd p) * (fst p * fst p + snd p * snd p).
Proof. rewrite <- plen_sq. ring. Qed.

Lemma brown_lip c rho : 0 <= rho -> lipschitz_on (brown_delta c) rho (brown_strength c rho).
Proof.
  intros Hr.
  eapply lip_ext; [|eapply lip_weaken; [|
    apply (lip_add _ _ _ _ _ (lip_add _ _ _ _ _ (lip_add _ _ _ _ _
       (lip_scale (bk1 c) _ _ _ (lip_radial 2 rho Hr ltac:(lia))) (lip_scale (bk2 c) _ _ _ (lip_radial 4 rho Hr ltac:(lia))))
       (lip_scale (bk3 c) _ _ _ (lip_radial 6 rho Hr ltac:(lia))))
       (lip_add _ _ _ _ _ (lip_scale (bp1 c) _ _ _ (lip_tang1 rho Hr)) (lip_scale (bp2 c) _ _ _ (lip_tang2 rho Hr))))]].
  - intros p. unfold brown_delta. cbv beta. rewrite plen_pow2, plen_pow4, plen_pow6.
    apply pix_eq; unfold padd, pscale, tang1, tang2; cbn [fst snd]; ring.
  - unfold brown_strength. rewrite !S_INR. cbn [INR]. ring.
Qed.
Lemma owen_lip c rho : 0 <= rho -> lipschitz_on (owen_delta c) rho (owen_strength c rho).
Proof.
  intros Hr.
  eapply lip_ext; [|eapply lip_weaken; [|
    apply (lip_add _ _ _ _ _
       (lip_add _ _ _ _ _
          (lip_add _ _ _ _ _ (lip_scale (oe2 c) _ _ _ (lip_radial 2 rho Hr ltac:(lia))) (lip_scale (oe4 c) _ _ _ (lip_radial 4 rho Hr ltac:(lia))))
          (lip_add _ _ _ _ _ (lip_scale (oe5 c) _ _ _ (lip_coord snd rho Hr ltac:(auto))) (lip_scale (oe6 c) _ _ _ (lip_coord fst rho Hr ltac:(auto)))))
       (lip_rot _ _ _ (lip_add _ _ _ _ _ (lip_scale (oe1 c) _ _ _ (lip_radial 1 rho Hr ltac:(lia))) (lip_scale (oe3 c) _ _ _ (lip_radial 3 rho Hr ltac:(lia))))))]].
  - intros p. unfold owen_delta. cbv beta zeta. fold (plen p). rewrite plen_pow2, plen_pow4. rewrite pow_1.
    replace (plen p ^ 3) with (plen p * (fst p * fst p + snd p * snd p)) by (rewrite <- plen_sq; ring).
    apply pix_eq; unfold padd, pscale, rot90; cbn [fst snd]; ring.
  - unfold owen_strength. rewrite !S_INR. cbn [INR]. ring.
Qed.

(* ---- the iteration ---- *)
Section Iteration.
Variables (delta : pixel -> pixel) (rho L : R).
Hypothesis Hlip : lipschitz_on delta rho L.
Hypothesis Hzero : delta (0, 0) = (0, 0).
Hypothesis HL : 0 <= L < 1.
Hypothesis Hrho : 0 <= rho.

Lemma step_in h u : plen h <= (1 - L) * rho -> plen u <= rho -> plen (psub h (delta u)) <= rho.
Proof.
  intros Hh Hu. pose proof (Hlip u (0, 0) Hu) as H. rewrite Hzero, !pdist_0r, plen_zero in H. specialize (H Hrho).
  pose proof (plen_add h (pscale (-1) (delta u))) as T. rewrite plen_scale, Rabs_left in T by lra.
  replace (padd h (pscale (-1) (delta u))) with (psub h (delta u)) in T by (apply pix_eq; unfold padd, psub, pscale; cbn; ring).
  assert (L * plen u <= L * rho) by nra. lra.
Qed.
Lemma step_contracts h u v : plen u <= rho -> plen v <= rho ->
  pdist (psub h (delta u)) (psub h (delta v)) <= L * pdist u v.
Proof. intros. rewrite pdist_psub. auto. Qed.

Lemma fixed_distort h u : psub h (delta u) = u <-> distort delta u = h.
Proof.
  unfold distort, psub, padd. split; intros E.
  - apply (f_equal fst) in E as E1. apply (f_equal snd) in E as E2. cbn [fst snd] in *. apply pix_eq; cbn [fst snd]; lra.
  - rewrite <- E. destruct u; cbn. f_equal; ring.
Qed.

(* the loop started anywhere in the disk *)
Lemma loop_error h us tol : plen h <= (1 - L) * rho -> plen us <= rho -> distort delta us = h -> 0 <= tol ->
  forall n u, plen u <= rho ->
  pdist (undistort_loop delta (tol * tol) h n u) us <= Rmax (L ^ n * pdist u us) (L / (1 - L) * tol).
Proof.
  intros Hh Hus Efix Htol. apply fixed_distort in Efix.
  induction n as [|n IH]; intros u Hu.
  - cbn. rewrite Rmult_1_l. apply Rmax_l.
  - cbn [undistort_loop].
    pose proof (step_in h u Hh Hu) as Hin. pose proof (step_contracts h u us Hu Hus) as Hc. rewrite Efix in Hc.
    destruct (Rltb _ (tol * tol)) eqn:Eb.
    + rb. apply plen_lt_iff in Eb; auto. fold (pdist (psub h (delta u)) u) in Eb.
      eapply Rle_trans; [|apply Rmax_r].
      pose proof (pdist_tri u (psub h (delta u)) us) as T. rewrite (pdist_sym u (psub h (delta u))) in T.
      assert (pdist u us * (1 - L) <= tol) by (rewrite Rmult_minus_distr_l; lra).
      assert (pdist u us <= tol / (1 - L)) by (apply Rmult_le_reg_r with (1 - L); [lra|]; unfold Rdiv; rewrite Rmult_assoc, Rinv_l by lra; lra).
      apply Rle_trans with (L * (tol / (1 - L))); [eapply Rle_trans; [exact Hc|]; apply Rmult_le_compat_l; lra|].
      right. unfold Rdiv. ring.
    + eapply Rle_trans; [apply IH; auto|]. apply Rmax_case; [|apply Rmax_r].
      eapply Rle_trans; [|apply Rmax_l]. assert (0 <= L ^ n) by (apply pow_le; lra).
      apply Rle_trans with (L ^ n * (L * pdist u us)); [apply Rmult_le_compat_l; auto|]. right. cbn. ring.
Qed.

(* existence of the preimage: Banach's fixed point theorem in the plane *)
Fixpoint iter (h : pixel) (n : nat) : pixel := match n with O => h | S m => psub h (delta (iter h m)) end.

Lemma iter_in h n : plen h <= (1 - L) * rho -> plen (iter h n) <= rho.
Proof. intros Hh. induction n; cbn; [nra | apply step_in; auto]. Qed.
Lemma iter_step h n : plen h <= (1 - L) * rho -> pdist (iter h (S n)) (iter h n) <= L ^ n * pdist (iter h 1) h.
Proof.
  intros Hh. induction n; [cbn; lra|].
  eapply Rle_trans; [apply (step_contracts h (iter h (S n)) (iter h n)); apply iter_in; auto|].
  change (L ^ S n) with (L * L ^ n). rewrite Rmult_assoc. apply Rmult_le_compat_l; [lra|]. exact IHn.
Qed.
Lemma iter_far h n k : plen h <= (1 - L) * rho ->
  pdist (iter h (n + k)) (iter h n) <= L ^ n * (pdist (iter h 1) h / (1 - L)).
Proof.
  intros Hh. assert (D := pdist_pos (iter h 1) h). set (D0 := pdist (iter h 1) h) in *.
  assert (H : pdist (iter h (n + k)) (iter h n) <= L ^ n * (D0 / (1 - L)) * (1 - L ^ k)).
  { induction k as [|k IH].
    - rewrite Nat.add_0_r. unfold pdist. rewrite (pix_eq (psub (iter h n) (iter h n)) (0, 0)) by (unfold psub; cbn [fst snd]; lra).
      rewrite plen_zero. cbn [pow]. lra.
    - rewrite Nat.add_succ_r. eapply Rle_trans; [apply (pdist_tri _ (iter h (n + k)))|].
      pose proof (iter_step h (n + k) Hh) as St. fold D0 in St. rewrite pow_add in St.
      replace (L ^ n * (D0 / (1 - L)) * (1 - L ^ S k)) with (L ^ n * (D0 / (1 - L)) * (1 - L ^ k) + L ^ n * L ^ k * D0); [lra|].
      cbn [pow]. field. lra. }
  eapply Rle_trans; [exact H|]. assert (0 <= L ^ n * (D0 / (1 - L))).
  { apply Rmult_le_pos; [apply pow_le; lra|]. apply Rmult_le_pos; auto. left. apply Rinv_0_lt_compat. lra. }
  assert (0 <= L ^ k) by (apply pow_le; lra). nra.
Qed.
Lemma pow_small C eps : 0 < eps -> exists N, forall n, (n >= N)%nat -> L ^ n * C < eps.
Proof.
  intros He. destruct (Rle_dec C 0).
  - exists O. intros n _. assert (0 <= L ^ n) by (apply pow_le; lra). nra.
  - assert (0 < eps / C) by (apply Rdiv_lt_0_compat; lra).
    destruct (pow_lt_1_zero L ltac:(rewrite Rabs_pos_eq; lra) (eps / C) H) as (N & HN).
    exists N. intros m Hm. specialize (HN m Hm). rewrite Rabs_pos_eq in HN by (apply pow_le; lra).
    apply Rmult_lt_reg_r with (/ C); [apply Rinv_0_lt_compat; lra|].
    rewrite Rmult_assoc, Rinv_r by lra. rewrite Rmult_1_r. exact HN.
Qed.
Lemma proj_cauchy (pr : pixel -> R) h : (forall a b, Rabs (pr a - pr b) <= pdist a b) ->
  plen h <= (1 - L) * rho -> Cauchy_crit (fun n => pr (iter h n)).
Proof.
  intros Hpr Hh eps He. destruct (pow_small (pdist (iter h 1) h / (1 - L)) eps He) as (N & HN).
  exists N. intros n m Hn Hm. unfold R_dist.
  assert (G : forall a b, (a >= N)%nat -> (a <= b)%nat -> Rabs (pr (iter h b) - pr (iter h a)) < eps).
  { intros a b Ha Hab. eapply Rle_lt_trans; [apply Hpr|]. replace b with (a + (b - a))%nat by lia.
    eapply Rle_lt_trans; [apply iter_far; auto|]. apply HN; auto. }
  destruct (Nat.le_ge_cases n m); [rewrite Rabs_minus_sym|]; apply G; auto.
Qed.
Lemma fixed_exists h : plen h <= (1 - L) * rho -> exists u, plen u <= rho /\ psub h (delta u) = u.
Proof.
  intros Hh.
  destruct (R_complete _ (proj_cauchy fst h (fun a b => plen_fst (psub a b)) Hh)) as (x & Hx).
  destruct (R_complete _ (proj_cauchy snd h (fun a b => plen_snd (psub a b)) Hh)) as (y & Hy).
  assert (Hconv : forall eps, 0 < eps -> exists N, forall n, (n >= N)%nat -> pdist (iter h n) (x, y) < eps).
  { intros eps He. destruct (Hx (eps / 2) ltac:(lra)) as (N1 & H1). destruct (Hy (eps / 2) ltac:(lra)) as (N2 & H2).
    exists (N1 + N2)%nat. intros n Hn. specialize (H1 n ltac:(lia)). specialize (H2 n ltac:(lia)).
    unfold R_dist in *. apply plen_lt_iff; [lra|]. unfold psub. cbn [fst snd].
    apply Rabs_def2 in H1. apply Rabs_def2 in H2. nra. }
  assert (Hin : plen (x, y) <= rho).
  { apply le_epsilon. intros eps He. destruct (Hconv eps He) as (N & HN). specialize (HN N ltac:(lia)).
    pose proof (plen_pdist (x, y) (iter h N)) as T. rewrite pdist_sym in T. pose proof (iter_in h N Hh). lra. }
  exists (x, y). split; auto. apply pdist_0. apply Rle_antisym; [|apply pdist_pos].
  apply le_epsilon. intros eps He. destruct (Hconv (eps / 2) ltac:(lra)) as (N & HN).
  pose proof (HN N ltac:(lia)) as A. pose proof (HN (S N) ltac:(lia)) as B. cbn [iter] in B.
  pose proof (step_contracts h (iter h N) (x, y) (iter_in h N Hh) Hin) as C.
  pose proof (pdist_tri (psub h (delta (x, y))) (psub h (delta (iter h N))) (x, y)) as T.
  rewrite (pdist_sym (psub h (delta (x, y))) (psub h (delta (iter h N)))) in T. pose proof (pdist_pos (iter h N) (x, y)).
  assert (L * pdist (iter h N) (x, y) <= pdist (iter h N) (x, y)) by nra. lra.
Qed.
Lemma fixed_unique h u v : plen u <= rho -> plen v <= rho -> psub h (delta u) = u -> psub h (delta v) = v -> u = v.
Proof.
  intros Hu Hv Eu Ev. pose proof (step_contracts h u v Hu Hv) as C. rewrite Eu, Ev in C.
  apply pdist_0. pose proof (pdist_pos u v). nra.
Qed.

Lemma inverts_lip n tol : 0 <= tol -> inverts (distort delta) (undistort delta n (tol * tol)) n tol rho L.
Proof.
  intros Ht h Hh. destruct (fixed_exists h Hh) as (u & Hu & Eu). exists u. split; auto.
  assert (Ed : distort delta u = h) by (apply fixed_distort; auto).
  split; auto. split.
  - intros u' Hu' E'. apply fixed_distort in E'. eapply fixed_unique; eauto.
  - unfold undistort. apply loop_error; auto. nra.
Qed.
End Iteration.

Lemma brown_delta_0 c : brown_delta c (0, 0) = (0, 0).
Proof. unfold brown_delta, padd, pscale; cbn. f_equal; ring. Qed.
Lemma owen_delta_0 c : owen_delta c (0, 0) = (0, 0).
Proof. unfold owen_delta, padd, pscale; cbn. f_equal; ring. Qed.
Lemma strength_nonneg_b c rho : 0 <= rho -> 0 <= brown_strength c rho.
Proof.
  intros. unfold brown_strength. pose proof (Rabs_pos (bk1 c)). pose proof (Rabs_pos (bk2 c)). pose proof (Rabs_pos (bk3 c)).
  pose proof (Rabs_pos (bp1 c)). pose proof (Rabs_pos (bp2 c)).
  repeat apply Rplus_le_le_0_compat; repeat apply Rmult_le_pos; try apply pow_le; lra.
Qed.
Lemma strength_nonneg_o c rho : 0 <= rho -> 0 <= owen_strength c rho.
Proof.
  intros. unfold owen_strength. pose proof (Rabs_pos (oe1 c)). pose proof (Rabs_pos (oe2 c)). pose proof (Rabs_pos (oe3 c)).
  pose proof (Rabs_pos (oe4 c)). pose proof (Rabs_pos (oe5 c)). pose proof (Rabs_pos (oe6 c)).
  repeat apply Rplus_le_le_0_compat; repeat apply Rmult_le_pos; try apply pow_le; lra.
Qed.

(* a model without offset *)
Lemma undistort_id delta n tol_sq h : (forall p, delta p = (0, 0)) -> undistort delta n tol_sq h = h.
Proof.
  intros E. assert (S : forall u, psub h (delta u) = h) by (intros; rewrite E; destruct h; unfold psub; cbn; f_equal; ring).
  unfold undistort. assert (G : forall m, undistort_loop delta tol_sq h m h = h).
  { induction m as [|m IH]; auto. cbn [undistort_loop]. rewrite S. destruct (Rltb _ _); auto. }
  apply G.
Qed.

(* OpenCV *)
Lemma clamp_nonzero d : clamp_denominator d <> 0 /\ k_min_denominator <= Rabs (clamp_denominator d).
Proof.
  assert (0 < k_min_denominator) by (unfold k_min_denominator; apply Rinv_0_lt_compat; lra).
  unfold clamp_denominator. destruct (Rltb (Rabs d) _) eqn:E; rb.
  - destruct (Rltb d 0); (split; [lra|]); [rewrite Rabs_left | rewrite Rabs_pos_eq]; lra.
  - split; auto. intros ->. rewrite Rabs_R0 in E. lra.
Qed.
Lemma opencv_delta_zero p : opencv_delta zero_opencv p = p.
Proof.
  unfold opencv_delta, zero_opencv. cbv zeta. cbn [ck1 ck2 ck3 ck4 ck5 ck6 cp1 cp2 cs1 cs2 cs3 cs4].
  replace (clamp_denominator _) with 1.
  - rewrite !Rmult_0_l, !Rmult_0_r, !Rplus_0_r. apply pix_eq; unfold padd, pscale; cbn [fst snd]; field.
  - rewrite !Rmult_0_l, !Rplus_0_r. unfold clamp_denominator. rewrite Rabs_pos_eq by lra.
    destruct (Rltb 1 k_min_denominator) eqn:E; auto. rb. exfalso. assert (k_min_denominator < 1); [|lra].
    unfold k_min_denominator. lra.
Qed.

Lemma psub_self p : psub p p = (0, 0).
Proof. apply pix_eq; unfold psub; cbn [fst snd]; lra. Qed.
Lemma psub_zero p : psub p (0, 0) = p.
Proof. apply pix_eq; unfold psub; cbn [fst snd]; lra. Qed.
Lemma plen_psub0 p : fst (psub (0, 0) p) * fst (psub (0, 0) p) + snd (psub (0, 0) p) * snd (psub (0, 0) p) = plen p * plen p.
Proof. rewrite plen_sq. unfold psub; cbn [fst snd]; ring. Qed.

(* with zero coefficients the OpenCV iteration alternates between h and 0 *)
Lemma opencv_alternates tol h : 0 <= tol -> tol <= plen h ->
  forall n, undistort_loop (opencv_delta zero_opencv) (tol * tol) h n h = (if Nat.even n then h else (0, 0))
         /\ undistort_loop (opencv_delta zero_opencv) (tol * tol) h n (0, 0) = (if Nat.even n then (0, 0) else h).
Proof.
  intros Ht Hh. induction n as [|n [IH1 IH2]]; [split; reflexivity|].
  cbn [undistort_loop]. rewrite !opencv_delta_zero, psub_self, !psub_zero, plen_psub0, <- plen_sq.
  replace (Rltb (plen h * plen h) (tol * tol)) with false by (symmetry; apply Rltb_false; nra).
  rewrite IH1, IH2, Nat.even_succ, <- Nat.negb_even. destruct (Nat.even n); split; reflexivity.
Qed.
