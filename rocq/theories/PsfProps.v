(** * C58 (PSF radius table), C90 (PSF kernels), C91 (sub-pixel banks), C92 (registration of point sources). *)
From Coq Require Import Lia Sorted.
From Verif Require Import Vec3 TilesModel TilesSpec PsfModel PsfProofs.
Open Scope R_scope.

(** C58 *)
Lemma Rabs_le_inv x y : Rabs x <= y -> - y <= x <= y.
Proof. unfold Rabs. destruct (Rcase_abs x); lra. Qed.
Lemma channel_max_ge v x : In x v -> x <= channel_max v.
Proof.
  unfold channel_max. destruct v as [|a t]; [intros []|]. assert (G: forall t a, a <= fold_left (fun m y => if Rltb m y then y else m) t a /\ forall y, In y t -> y <= fold_left (fun m y => if Rltb m y then y else m) t a).
  { clear. induction t as [|b t IH]; intros a; cbn; [split; [lra|tauto]|]. destruct (IH (if Rltb a b then b else a)) as (A & B). split; [destruct (Rltb a b) eqn:E; rb; lra|]. intros y [->|H]; auto. destruct (Rltb a y) eqn:E; rb; lra. }
  destruct (G t a) as (A & B). intros [->|H]; auto.
Qed.
Lemma max_irradiance_ge irr v x : In v irr -> In x v -> x <= max_irradiance irr.
Proof. intros H I. unfold max_irradiance. destruct (fold_max_ge _ channel_max irr 0) as (_ & B & _). specialize (B v H). pose proof (channel_max_ge v x I). lra. Qed.
Lemma max_irradiance_nonneg irr : 0 <= max_irradiance irr.
Proof. unfold max_irradiance. apply (fold_max_ge _ channel_max irr 0). Qed.
(* For the kernel from which the table is built: every pixel outside the assigned radius receives less than the threshold of 0.1 photons per second in
   every channel and at every time sample; the radius lies within the kernel; and it is not larger than needed. *)
Theorem C58_centered_partial : forall center R area energies irr, (1 < R)%Z -> 0 <= area -> (forall e, In e energies -> 0 < e) ->
  (forall x y w, In w (center x y) -> 0 <= w) -> (forall x y, List.length (center x y) = List.length energies) ->
  let eff := assign_radius true center (dim R) (dim R) R area energies irr in
  (1 <= eff <= R)%Z /\
  (forall v x y c, In v irr -> List.length v = List.length energies -> (c < List.length energies)%nat -> (0 <= x < dim R)%Z -> (0 <= y < dim R)%Z -> (eff < ring R (x, y))%Z ->
     nth c v 0 * nth c (center x y) 0 * (area / nth c energies 0) < 1 / 10) /\
  (eff = 1%Z \/ exists x y c, (0 <= x < dim R)%Z /\ (0 <= y < dim R)%Z /\ ring R (x, y) = eff /\ (c < List.length energies)%nat /\
     1 / 10 <= max_irradiance irr * nth c (center x y) 0 * (area / nth c energies 0)).
Proof.
  intros center R area energies irr HR HA HE HW HL. cbv zeta. unfold assign_radius. rewrite (proj2 (Z.ltb_lt 1 R)) by auto. cbn [andb].
  set (lut := build_radius_lut center (dim R) (dim R) R area energies photon_threshold). set (m := max_irradiance irr).
  pose proof (max_irradiance_nonneg irr) as M0. fold m in M0.
  destruct (sorted_lut center (dim R) (dim R) R area energies photon_threshold) as (SL & IL). fold lut in SL, IL.
  set (conv := conversion area energies) in *. assert (LC: List.length conv = List.length energies) by apply map_length.
  assert (NC: forall c, (c < List.length energies)%nat -> nth c conv 0 = area / nth c energies 0).
  { intros c Hc. unfold conv, conversion. set (f := fun e => if Rltb 0 e then area / e else 0). rewrite (nth_indep _ 0 (f 0)) by (rewrite map_length; auto). rewrite (map_nth f). unfold f.
    rewrite (proj2 (Rltb_true _ _)); [reflexivity|]. apply HE, nth_In; auto. }
  set (S := fun r => ring_sensitivity center (dim R) (dim R) conv R r) in *.
  assert (SP: forall r, (0 < r)%Z -> 0 <= S r /\ (forall x y c, (0 <= x < dim R)%Z -> (0 <= y < dim R)%Z -> ring R (x, y) = r -> (c < List.length energies)%nat -> nth c (center x y) 0 * nth c conv 0 <= S r) /\
    (S r = 0 \/ exists x y c, (x < dim R)%Z /\ (y < dim R)%Z /\ ring R (x, y) = r /\ (c < List.length energies)%nat /\ S r = nth c (center x y) 0 * nth c conv 0)).
  { intros r Hr. destruct (scan_spec center (dim R) (dim R) conv (ring_pixels R r) 0) as (A & B & C). unfold S, ring_sensitivity. split; [exact A|]. split.
    - intros x y c Hx Hy Hp Hc. apply (B (x, y) (nth c (center x y) 0, nth c conv 0)); cbn [fst snd]; try lia.
      + apply in_ring; auto.
      + rewrite <- combine_nth by (rewrite HL, LC; auto). apply nth_In. rewrite combine_length, HL, LC, Nat.min_id. auto.
    - destruct C as [C|((x & y) & (w & q) & I & H1 & H2 & H3 & C)]; [left; exact C|right]. cbn [fst snd] in *. destruct (In_nth _ _ (0, 0) H3) as (c & Hc & N). rewrite combine_length, HL, LC, Nat.min_id in Hc.
      rewrite combine_nth in N by (rewrite HL, LC; auto). injection N as N1 N2. exists x, y, c. apply in_ring in I; [|auto]. subst w q. repeat split; auto. }
  assert (IN: forall v c, In v irr -> List.length v = List.length energies -> (c < List.length energies)%nat -> nth c v 0 <= m) by (intros v c Hv Lv Hc; apply (max_irradiance_ge irr v); auto; apply nth_In; lia).
  assert (CP: forall x y c, (c < List.length energies)%nat -> 0 <= nth c (center x y) 0 * nth c conv 0).
  { intros x y c Hc. apply Rmult_le_pos; [apply (HW x y), nth_In; rewrite HL; auto|]. rewrite NC by auto. apply Rmult_le_pos; [auto|]. apply Rlt_le, Rinv_0_lt_compat, HE, nth_In; auto. }
  assert (CUT: forall v x y c, (forall e, In e lut -> fst e = ring R (x, y) -> m < snd e) -> (0 < ring R (x, y) <= R)%Z -> In v irr -> List.length v = List.length energies -> (c < List.length energies)%nat -> (0 <= x < dim R)%Z -> (0 <= y < dim R)%Z ->
    nth c v 0 * nth c (center x y) 0 * (area / nth c energies 0) < 1 / 10).
  { intros v x y c HM Hr Hv Lv Hc Hx Hy. rewrite <- NC, Rmult_assoc by auto. destruct (SP (ring R (x, y)) ltac:(lia)) as (S0 & SU & _). specialize (SU x y c Hx Hy eq_refl Hc). specialize (CP x y c Hc). specialize (IN v c Hv Lv Hc).
    assert (nth c v 0 * (nth c (center x y) 0 * nth c conv 0) <= m * S (ring R (x, y))) by (eapply Rle_trans; [apply Rmult_le_compat_r; [exact CP|exact IN]|apply Rmult_le_compat_l; auto]).
    destruct (Req_dec (S (ring R (x, y))) 0) as [Z|Z]; [rewrite Z in *; lra|]. assert (P: 0 < S (ring R (x, y))) by lra.
    assert (HI: In (ring R (x, y), photon_threshold / S (ring R (x, y))) lut) by (apply IL; cbn [fst snd]; split; [lia|split; auto]).
    specialize (HM _ HI eq_refl). cbn [snd] in HM. apply (Rmult_lt_compat_r (S (ring R (x, y)))) in HM; auto. unfold Rdiv in HM. rewrite Rmult_assoc, Rinv_l in HM by lra. unfold photon_threshold in HM. lra. }
  assert (RB: forall x y, (0 <= x < dim R)%Z -> (0 <= y < dim R)%Z -> (ring R (x, y) <= R)%Z) by (intros x y; unfold ring, dim; cbn [fst snd]; lia).
  unfold lookup_effective_radius. destruct (find (fun e => Rleb (snd e) m) (rev lut)) as [e|] eqn:F.
  - destruct (find_rev_sorted lut _ e SL F) as (I & T & MX). apply IL in I as (HB & P & Q). rewrite Z.max_l by lia. split; [lia|]. split.
    + intros v x y c Hv Lv Hc Hx Hy Hr. specialize (RB x y Hx Hy). apply CUT; auto; [|lia]. intros e' I' E'. apply Rnot_le_lt. intros LE. specialize (MX e' I' (proj2 (Rleb_true _ _) LE)). lia.
    + right. destruct (SP (fst e) ltac:(lia)) as (_ & _ & [Z|(x & y & c & Hx & Hy & HG & Hc & ES)]); [change (0 < S (fst e)) in P; rewrite Z in P; lra|]. exists x, y, c. unfold ring in HG; cbn [fst snd] in HG.
      split; [unfold dim in *; lia|]. split; [unfold dim in *; lia|]. split; [unfold ring; cbn [fst snd]; lia|]. split; [auto|]. rewrite <- NC, Rmult_assoc, <- ES by auto. apply Rleb_true in T. change (0 < S (fst e)) in P. change (snd e = photon_threshold / S (fst e)) in Q. rewrite Q in T.
      apply (Rmult_le_compat_r (S (fst e))) in T; [|lra]. unfold Rdiv in T at 1. rewrite Rmult_assoc, Rinv_l in T by lra. unfold photon_threshold in T. lra.
  - split; [lia|]. split; [|auto]. intros v x y c Hv Lv Hc Hx Hy Hr. specialize (RB x y Hx Hy). apply CUT; auto; [|lia]. intros e' I' E'. apply in_rev in I'. pose proof (find_none _ _ F e' I') as N. apply Rleb_false in N. exact N.
Qed.
Print Assumptions C58_centered_partial.
Example C58_case : (1 < 2)%Z /\ assign_radius true (fun x y => [1]) (dim 2) (dim 2) 2 1 [1] [[1 / 2]] = 2%Z.
Proof.
  split; [lia|]. assert (S1: forall r, In r [1; 2]%Z -> ring_sensitivity (fun _ _ => [1]) (dim 2) (dim 2) (conversion 1 [1]) 2 r = 1).
  { assert (C1: conversion 1 [1] = [1]) by (unfold conversion; cbn; rewrite (proj2 (Rltb_true 0 1)) by lra; f_equal; lra). rewrite C1. intros r Hr. assert (Hr': (r = 1 \/ r = 2)%Z) by (destruct Hr as [<-|[<-|[]]]; auto). clear Hr. unfold ring_sensitivity.
    destruct (scan_spec (fun _ _ => [1]) (dim 2) (dim 2) [1] (ring_pixels 2 r) 0) as (A & B & C).
    assert (1 <= fold_left (scan_pixel (fun _ _ => [1]) (dim 2) (dim 2) [1]) (ring_pixels 2 r) 0).
    { replace 1 with (1 * 1) at 1 by ring. apply (B (2, 2 + r)%Z (1, 1)); [apply in_ring; [lia|unfold ring; cbn [fst snd]; lia]|unfold dim; cbn [fst]; lia|unfold dim; cbn [snd]; lia|left; reflexivity]. }
    destruct C as [C|(p & wc & _ & _ & _ & [<-|[]] & C)]; [rewrite C in H; lra|]. cbn [fst snd] in C. lra. }
  assert (L: build_radius_lut (fun _ _ => [1]) (dim 2) (dim 2) 2 1 [1] photon_threshold = [(1%Z, photon_threshold / 1); (2%Z, photon_threshold / 1)]).
  { unfold build_radius_lut. cbn [Z.leb Z.compare]. change (zlist 1 (2 + 1)) with [1; 2]%Z. cbn [flat_map]. rewrite !S1 by (cbn; auto). rewrite (proj2 (Rltb_true 0 1)) by lra. reflexivity. }
  assert (MI: max_irradiance [[1 / 2]] = 1 / 2) by (unfold max_irradiance, channel_max; cbn; rewrite Rmax_right by lra; reflexivity).
  unfold assign_radius. rewrite L, MI. cbn [andb Z.ltb Z.compare]. unfold lookup_effective_radius. cbn. rewrite (proj2 (Rleb_true _ _)) by (unfold photon_threshold; lra). reflexivity.
Qed.

(** C90 *)
Theorem C90_kernels : forall ev radius banks bx by', (0 <= radius)%Z -> (forall x y, 0 <= ev x y) ->
  exists k : Z -> Z -> R, (forall x y, kernel ev radius banks bx by' x y = Some (k x y) /\ 0 <= k x y) /\
    (total (map (fun p => k (fst p) (snd p)) (pixels radius)) = 1 \/ forall x y, k x y = 0).
Proof.
  intros ev radius banks bx by' HR HE. destruct (kernel_defined ev radius banks bx by' HR HE) as (r & e & RD & TE & EE & KE). exists (fun x y => r x y * energy_scale e).
  assert (SC: 0 <= energy_scale e) by (unfold energy_scale; destruct (Rltb _ e) eqn:B; rb; [|lra]; apply Rlt_le, Rdiv_lt_0_compat; [lra|]; assert (0 < / 10 ^ 9) by (apply Rinv_0_lt_compat; lra); lra).
  split; [intros x y; split; [auto|]; apply Rmult_le_pos; [apply RD|auto]|].
  unfold energy_scale in *. destruct (Rltb (/ 10 ^ 9) e) eqn:B; rb; [left|right; intros; ring].
  rewrite <- (map_map (fun p => r (fst p) (snd p)) (fun x => x * (1 / e))), total_scale, <- EE. assert (0 < / 10 ^ 9) by (apply Rinv_0_lt_compat; lra). field. lra.
Qed.
Print Assumptions C90_kernels.
Lemma pos_center radius banks b s : (0 < banks)%Z -> (0 <= b < banks)%Z -> (0 <= s < 16)%Z -> - (3 / 2) < sample_pos radius banks b radius s < 1 / 2.
Proof.
  intros HB Hb Hs. unfold sample_pos. rewrite Z.sub_diag. pose proof (sub_bounds s Hs). assert (0 < IZR banks) by (apply IZR_lt; auto). assert (0 <= IZR b / IZR banks < 1); [|lra]. destruct Hb as (B1 & B2). apply IZR_le in B1. apply IZR_lt in B2.
  split; [apply Rmult_le_pos; [auto|apply Rlt_le, Rinv_0_lt_compat; auto]|]. apply (Rmult_lt_reg_r (IZR banks)); auto. unfold Rdiv. rewrite Rmult_assoc, Rinv_l by lra. lra.
Qed.
(* a PSF with light near its centre has kernels that sum to one in every bank *)
Theorem C90_bright : forall ev radius banks bx by', (1 <= radius)%Z -> (0 < banks)%Z -> (0 <= bx < banks)%Z -> (0 <= by' < banks)%Z -> (forall x y, 0 <= ev x y) ->
  (forall x y, Rabs x <= 8 / 5 -> Rabs y <= 8 / 5 -> / 10 ^ 8 <= ev x y) ->
  exists k : Z -> Z -> R, (forall x y, kernel ev radius banks bx by' x y = Some (k x y)) /\ total (map (fun p => k (fst p) (snd p)) (pixels radius)) = 1.
Proof.
  intros ev radius banks bx by' HR HB Hx Hy HE HC. destruct (kernel_defined ev radius banks bx by' ltac:(lia) HE) as (r & e & RD & TE & EE & KE). exists (fun x y => r x y * energy_scale e). split; [exact KE|].
  assert (RC: / 10 ^ 8 <= r radius radius).
  { pose proof (maxr_pos radius ltac:(lia)). assert (2 <= max_radius radius) by (unfold max_radius; apply IZR_le in HR; lra). pose proof (cell_small radius ltac:(lia)) as CS. pose proof (cell_pos radius ltac:(lia)) as CP.
    assert (LW: exists a, raw_kernel (fun x y => Rmin (ev x y) 1) radius banks bx by' radius radius = Some a /\ / 10 ^ 8 <= a <= 1).
    { apply raw_local; [lia|]. intros sx sy Hsx Hsy. pose proof (pos_center radius banks bx sx HB Hx Hsx) as PX. pose proof (pos_center radius banks by' sy HB Hy Hsy) as PY.
      apply sample_lut_local; [lia|apply Rabs_def1; lra|apply Rabs_def1; lra|]. intros x y Ax Ay. apply Rabs_le_inv in Ax, Ay. split; [|apply Rmin_r]. apply Rmin_glb; [apply HC; apply Rabs_le; lra|]. apply Rle_trans with (/ 1); [apply Rinv_le_contravar; lra|lra]. }
    assert (GE: forall f u v, (forall x y, 0 <= f x y <= ev x y) -> forall a b, sample_lut f radius u v = Some a -> sample_lut ev radius u v = Some b -> a <= b).
    { intros f u v Hf a b. unfold sample_lut. cbv zeta. destruct (_ || _)%bool eqn:OB; [intros EA EB; injection EA as <-; injection EB as <-; lra|]. apply Bool.orb_false_iff in OB as (OB & B4). apply Bool.orb_false_iff in OB as (OB & B3). apply Bool.orb_false_iff in OB as (B1 & B2). apply Rltb_false in B1, B3. apply Rleb_false in B2, B4.
      destruct (trunc_nonneg _ B1) as (TX & TX'). destruct (trunc_nonneg _ B3) as (TY & TY'). pose proof (trunc_range _ (lut_res radius - 1) B1 B2) as RX. pose proof (trunc_range _ (lut_res radius - 1) B3 B4) as RY.
      set (x0 := trunc _) in *. set (y0 := trunc (lut_coord radius v)) in *. rewrite !lut_at_in by lia.
      assert (LM: forall a b c d t, 0 <= t <= 1 -> a <= c -> b <= d -> a * (1 - t) + b * t <= c * (1 - t) + d * t) by (intros; nra).
      destruct (if Req_EM_T _ _ then _ else _); intros EA EB; injection EA as <-; injection EB as <-; [apply Hf|]. apply LM; [lra| |]; apply LM; try lra; apply Hf. }
    destruct LW as (a & EA & LA & _). apply Rle_trans with a; [exact LA|]. destruct (RD radius radius) as (ER & _). rewrite raw_as_map in EA, ER.
    assert (D1: forall p, In p subsamples -> exists s, sample_lut (fun x y => Rmin (ev x y) 1) radius (sample_pos radius banks bx radius (fst p)) (sample_pos radius banks by' radius (snd p)) = Some s /\ True).
    { intros p _. destruct (sample_lut_defined (fun x y => Rmin (ev x y) 1) radius (sample_pos radius banks bx radius (fst p)) (sample_pos radius banks by' radius (snd p)) ltac:(lia)) as (s & Es & _); [intros; apply Rmin_glb; [apply HE|lra]|eauto]. }
    assert (D2: forall p, In p subsamples -> exists s, sample_lut ev radius (sample_pos radius banks bx radius (fst p)) (sample_pos radius banks by' radius (snd p)) = Some s /\ True).
    { intros p _. destruct (sample_lut_defined ev radius (sample_pos radius banks bx radius (fst p)) (sample_pos radius banks by' radius (snd p)) ltac:(lia) HE) as (s & Es & _); eauto. }
    destruct (all_some _ _ (fun _ _ => True) _ D1) as (g1 & G1 & E1). destruct (all_some _ _ (fun _ _ => True) _ D2) as (g2 & G2 & E2). rewrite E1, osum_some in EA. rewrite E2, osum_some in ER.
    assert (EA': a = total (map g1 subsamples) * (1 / 256)) by congruence. assert (ER': r radius radius = total (map g2 subsamples) * (1 / 256)) by congruence. rewrite EA', ER'.
    apply Rmult_le_compat_r; [lra|]. assert (MONO: forall l, (forall p, In p l -> g1 p <= g2 p) -> total (map g1 l) <= total (map g2 l)) by (unfold total; induction l as [|q l IH]; cbn; intros HH; [lra|]; assert (g1 q <= g2 q) by auto; specialize (IH (fun p h => HH p (or_intror h))); lra).
    apply MONO. intros p Hp. eapply GE; [|apply (G1 p Hp)|apply (G2 p Hp)]. intros x y. split; [apply Rmin_glb; [apply HE|lra]|apply Rmin_l]. }
  assert (BIG: / 10 ^ 9 < e).
  { apply Rlt_le_trans with (/ 10 ^ 8); [apply Rinv_lt_contravar; lra|]. eapply Rle_trans; [exact RC|]. rewrite EE. apply total_ge.
    - intros z Hz. apply in_map_iff in Hz as (p & <- & _). apply RD.
    - apply in_map_iff. exists (radius, radius). split; [reflexivity|]. apply in_pixels. unfold dim. cbn [fst snd]. lia. }
  unfold energy_scale. rewrite (proj2 (Rltb_true _ _)) by auto. rewrite <- (map_map (fun p => r (fst p) (snd p)) (fun x => x * (1 / e))), total_scale, <- EE. assert (0 < / 10 ^ 9) by (apply Rinv_0_lt_compat; lra). field. lra.
Qed.
Print Assumptions C90_bright.
Example C90_case : exists k : Z -> Z -> R, (forall x y, kernel (fun x y => exp (- (x * x + y * y))) 1 2 1 0 x y = Some (k x y)) /\ total (map (fun p => k (fst p) (snd p)) (pixels 1)) = 1.
Proof.
  apply C90_bright; try lia; [intros; apply Rlt_le, exp_pos|]. intros x y Hx Hy. apply Rabs_le_inv in Hx, Hy. assert (SQ: forall z, - (8 / 5) <= z <= 8 / 5 -> z * z <= 64 / 25) by (intros z Hz; assert (0 <= (8 / 5 - z) * (8 / 5 + z)) by (apply Rmult_le_pos; lra); lra).
  pose proof (SQ x Hx). pose proof (SQ y Hy). assert (x * x + y * y <= 6) by lra.
  apply Rle_trans with (exp (- 6)); [|apply Rlt_le, exp_increasing; lra].
  assert (EO: exp (-6) = / exp 6) by (rewrite <- exp_Ropp; f_equal; lra). rewrite EO. clear EO. apply Rinv_le_contravar; [apply exp_pos|]. pose proof exp_le_3 as E3. replace 6 with (1 + 1 + 1 + 1 + 1 + 1) by ring. rewrite !exp_plus. pose proof (exp_pos 1) as E0. set (e := exp 1) in *.
  assert (e * e <= 9) by nra. assert (0 < e * e) by nra. replace (e * e * e * e * e * e) with ((e * e) * (e * e) * (e * e)) by ring. assert ((e * e) * (e * e) <= 81) by nra. nra.
Qed.

(** C91 *)
Lemma bank_range banks u : (0 < banks)%Z -> (0 <= bank_of banks u < banks)%Z.
Proof. intros H. unfold bank_of, clampz. destruct (Z.ltb_spec (trunc (u * IZR banks)) 0); [lia|]. destruct (Z.ltb_spec (banks - 1) (trunc (u * IZR banks))); lia. Qed.
Lemma bank_near banks u : (0 < banks)%Z -> 0 <= u < 1 -> IZR (bank_of banks u) / IZR banks <= u < (IZR (bank_of banks u) + 1) / IZR banks.
Proof.
  intros H Hu. assert (HB: 0 < IZR banks) by (apply IZR_lt; auto). assert (P: 0 <= u * IZR banks) by (apply Rmult_le_pos; lra). destruct (trunc_nonneg _ P) as (A & B).
  assert (trunc (u * IZR banks) < banks)%Z by (apply lt_IZR; assert (u * IZR banks < 1 * IZR banks) by (apply Rmult_lt_compat_r; lra); lra).
  unfold bank_of, clampz. rewrite (proj2 (Z.ltb_ge _ 0)), (proj2 (Z.ltb_ge (banks - 1) _)) by lia.
  split; apply (Rmult_le_reg_r (IZR banks)) || apply (Rmult_lt_reg_r (IZR banks)); auto; unfold Rdiv; rewrite Rmult_assoc, Rinv_l by lra; lra.
Qed.
(* the kernel picked for the sub-pixel position (u, v) exists and is the one of the bank that contains the position *)
Theorem C91_bank : forall banks u v, (0 < banks)%Z ->
  exists bx by', get_kernel_index banks u v = Ok (by' * banks + bx)%Z /\ (0 <= bx < banks)%Z /\ (0 <= by' < banks)%Z /\
    (0 <= u < 1 -> IZR bx / IZR banks <= u < (IZR bx + 1) / IZR banks) /\ (0 <= v < 1 -> IZR by' / IZR banks <= v < (IZR by' + 1) / IZR banks).
Proof.
  intros banks u v H. exists (bank_of banks u), (bank_of banks v). pose proof (bank_range banks u H). pose proof (bank_range banks v H).
  split; [|split; [auto|split; [auto|split; intros; apply bank_near; auto]]]. unfold get_kernel_index. cbv zeta.
  destruct (Z.eqb_spec (banks * banks) 0); [nia|]. rewrite (proj2 (Z.ltb_ge _ _)) by lia. rewrite (proj2 (Z.leb_le _ _)), (proj2 (Z.ltb_lt _ _)) by nia. reflexivity.
Qed.
Print Assumptions C91_bank.
(* no banks: an error; a negative number of banks is not rejected *)
Theorem C91_no_banks : forall u v, get_kernel_index 0 u v = Throws /\ get_kernel_index (-1) u v = UB.
Proof. intros. split; reflexivity. Qed.
Print Assumptions C91_no_banks.
(* the mean position, relative to the PSF centre, of the samples of pixel x of bank b: the pixel's distance from the source when the source sits at
   the lower edge b / banks of the bank and the centre of pixel i is at coordinate i *)
Theorem C91_centroid : forall radius banks b x, total (map (fun s => sample_pos radius banks b x s) (zlist 0 16)) / 16 = IZR (x - radius) - IZR b / IZR banks.
Proof. intros. change (zlist 0 16) with [0;1;2;3;4;5;6;7;8;9;10;11;12;13;14;15]%Z. unfold sample_pos, sub. generalize (IZR (x - radius) - IZR b / IZR banks). intros c. unfold total. cbn. lra. Qed.
Print Assumptions C91_centroid.

(** C58, refuted part: the table is built from the kernel of a source at the pixel's origin, but sources between pixels use shifted kernels *)
Definition box (x y : R) : R := if (Rltb (Rabs x) (7 / 5) && Rltb (Rabs y) (7 / 5))%bool then 1 else 0.
Lemma box_range x y : 0 <= box x y <= 1. Proof. unfold box. destruct (_ && _)%bool; lra. Qed.
Lemma box_one x y : Rabs x < 7 / 5 -> Rabs y < 7 / 5 -> box x y = 1.
Proof. intros. unfold box. rewrite !(proj2 (Rltb_true _ _)) by auto. reflexivity. Qed.
Lemma box_zero x y : 7 / 5 <= Rabs x \/ 7 / 5 <= Rabs y -> box x y = 0.
Proof. intros [H|H]; unfold box; [rewrite (proj2 (Rltb_false _ _)) by auto; reflexivity|rewrite (proj2 (Rltb_false (Rabs y) _)) by auto; rewrite Bool.andb_false_r; reflexivity]. Qed.
Theorem C58_refuted_shifted : exists ev, (forall x y, 0 <= ev x y) /\ exists k0 k1, (forall x y, kernel ev 2 2 0 0 x y = Some (k0 x y)) /\ (forall x y, kernel ev 2 2 1 0 x y = Some (k1 x y)) /\
  get_kernel_index 2 (1 / 2) 0 = Ok (0 * 2 + 1)%Z /\ total (map (fun p => k0 (fst p) (snd p)) (pixels 2)) = 1 /\ total (map (fun p => k1 (fst p) (snd p)) (pixels 2)) = 1 /\
  0 < k1 4%Z 2%Z /\ forall area energy irr, assign_radius true (fun x y => [k0 x y]) (dim 2) (dim 2) 2 area [energy] irr = 1%Z.
Proof.
  exists box. assert (HE: forall x y, 0 <= box x y) by (intros; apply box_range). split; [exact HE|].
  destruct (kernel_defined box 2 2 0 0 ltac:(lia) HE) as (r0 & e0 & RD0 & TE0 & EE0 & KE0). destruct (kernel_defined box 2 2 1 0 ltac:(lia) HE) as (r1 & e1 & RD1 & TE1 & EE1 & KE1).
  pose proof (cell_small 2 ltac:(lia)) as CS. pose proof (cell_pos 2 ltac:(lia)) as CP. assert (M3: max_radius 2 = 3) by (unfold max_radius; lra).
  assert (SB: forall s, (0 <= s < 16)%Z -> - (15 / 32) <= sub s <= 15 / 32) by (intros s Hs; unfold sub; assert (0 <= IZR s <= 15) by (split; apply IZR_le; lia); lra).
  (* centre pixels of both kernels are fully lit *)
  assert (C0: r0 2%Z 2%Z = 1).
  { destruct (raw_local box 2 2 0 0 2 2 1 1 ltac:(lia)) as (a & EA & HA).
    - intros sx sy Hx Hy. specialize (SB sx Hx) as Bx. specialize (SB sy Hy) as By. apply sample_lut_local; [lia| | |].
      + unfold sample_pos. cbn. apply Rabs_def1; lra.
      + unfold sample_pos. cbn. apply Rabs_def1; lra.
      + intros x y Ax Ay. unfold sample_pos in Ax, Ay. cbn in Ax, Ay. apply Rabs_le_inv in Ax, Ay. rewrite box_one; [lra| |]; apply Rabs_def1; lra.
    - destruct (RD0 2%Z 2%Z) as (E & _). rewrite E in EA. injection EA as <-. lra. }
  assert (C1: r1 2%Z 2%Z = 1).
  { destruct (raw_local box 2 2 1 0 2 2 1 1 ltac:(lia)) as (a & EA & HA).
    - intros sx sy Hx Hy. specialize (SB sx Hx) as Bx. specialize (SB sy Hy) as By. apply sample_lut_local; [lia| | |].
      + unfold sample_pos. cbn. apply Rabs_def1; lra.
      + unfold sample_pos. cbn. apply Rabs_def1; lra.
      + intros x y Ax Ay. unfold sample_pos in Ax, Ay. cbn in Ax, Ay. apply Rabs_le_inv in Ax, Ay. rewrite box_one; [lra| |]; apply Rabs_def1; lra.
    - destruct (RD1 2%Z 2%Z) as (E & _). rewrite E in EA. injection EA as <-. lra. }
  assert (IC: forall r : Z -> Z -> R, In (r 2%Z 2%Z) (map (fun p => r (fst p) (snd p)) (pixels 2))) by (intros r; apply in_map_iff; exists (2, 2)%Z; split; [reflexivity|apply in_pixels; unfold dim; cbn [fst snd]; lia]).
  assert (E0: 1 <= e0) by (rewrite EE0, <- C0; apply total_ge; [intros z Hz; apply in_map_iff in Hz as (p & <- & _); apply RD0|apply IC]).
  assert (E1: 1 <= e1) by (rewrite EE1, <- C1; apply total_ge; [intros z Hz; apply in_map_iff in Hz as (p & <- & _); apply RD1|apply IC]).
  assert (T9: / 10 ^ 9 < 1) by (apply Rlt_le_trans with (/ 1); [apply Rinv_lt_contravar|]; lra).
  assert (S0: energy_scale e0 = 1 / e0) by (unfold energy_scale; rewrite (proj2 (Rltb_true _ _)) by lra; reflexivity).
  assert (S1: energy_scale e1 = 1 / e1) by (unfold energy_scale; rewrite (proj2 (Rltb_true _ _)) by lra; reflexivity).
  exists (fun x y => r0 x y * (1 / e0)), (fun x y => r1 x y * (1 / e1)).
  split; [intros; rewrite KE0, S0; reflexivity|]. split; [intros; rewrite KE1, S1; reflexivity|].
  split. { destruct (C91_bank 2 (1 / 2) 0 ltac:(lia)) as (bx & by' & E & Bx & By & Ux & Uy). specialize (Ux ltac:(lra)). specialize (Uy ltac:(lra)). rewrite E. f_equal.
    assert (bx = 1)%Z by (destruct (Z.eq_dec bx 0) as [->|]; [lra|lia]). assert (by' = 0)%Z by (destruct (Z.eq_dec by' 1) as [->|]; [lra|lia]). subst. reflexivity. }
  split. { rewrite <- (map_map (fun p => r0 (fst p) (snd p)) (fun x => x * (1 / e0))), total_scale, <- EE0. field. lra. }
  split. { rewrite <- (map_map (fun p => r1 (fst p) (snd p)) (fun x => x * (1 / e1))), total_scale, <- EE1. field. lra. }
  split.
  - apply Rmult_lt_0_compat; [|apply Rdiv_lt_0_compat; lra].
    (* the sample at sx = 0, sy = 8 of pixel (4, 2) lies at about (1.03, 0.03), inside the box *)
    destruct (RD1 4%Z 2%Z) as (E & P). rewrite raw_as_map in E.
    destruct (all_some _ (fun p => sample_lut box 2 (sample_pos 2 2 1 4 (fst p)) (sample_pos 2 2 0 2 (snd p))) (fun _ s => 0 <= s) subsamples (fun p _ => sample_lut_defined box 2 _ _ ltac:(lia) HE)) as (g & Hg & EG).
    rewrite EG, osum_some in E. assert (E': r1 4%Z 2%Z = total (map g subsamples) * (1 / 256)) by congruence. rewrite E'. assert (HI: In (0, 8)%Z subsamples) by (apply in_subsamples; cbn [fst snd]; lia).
    assert (G1: g (0, 8)%Z = 1).
    { destruct (sample_lut_local box 2 (sample_pos 2 2 1 4 0) (sample_pos 2 2 0 2 8) 1 1 ltac:(lia)) as (s & Es & Hs).
      - unfold sample_pos, sub. cbn. apply Rabs_def1; lra.
      - unfold sample_pos, sub. cbn. apply Rabs_def1; lra.
      - intros x y Ax Ay. unfold sample_pos, sub in Ax, Ay. cbn in Ax, Ay. apply Rabs_le_inv in Ax, Ay. rewrite box_one; [lra| |]; apply Rabs_def1; lra.
      - destruct (Hg _ HI) as (EQ & _). cbn [fst snd] in EQ. rewrite EQ in Es. injection Es as <-. lra. }
    assert (1 <= total (map g subsamples)); [|lra]. rewrite <- G1. apply total_ge; [intros z Hz; apply in_map_iff in Hz as (p & <- & Hp); apply Hg; auto|]. apply in_map. auto.
  - intros area energy irr.
    (* ring 2 of the centred kernel is dark *)
    assert (DARK: forall x y, (0 <= x < dim 2)%Z -> (0 <= y < dim 2)%Z -> ring 2 (x, y) = 2%Z -> r0 x y = 0).
    { intros x y Hx Hy HR. destruct (raw_local box 2 2 0 0 x y 0 0 ltac:(lia)) as (a & EA & HA); [|destruct (RD0 x y) as (E & _); rewrite E in EA; injection EA as <-; lra].
      intros sx sy Hsx Hsy. specialize (SB sx Hsx) as Bx. specialize (SB sy Hsy) as By. unfold ring in HR. cbn [fst snd] in HR. unfold dim in Hx, Hy.
      assert (PB: forall z s, (0 <= z < 5)%Z -> - (15 / 32) <= sub s <= 15 / 32 -> Rabs (sample_pos 2 2 0 z s) < max_radius 2).
      { intros z s Hz Hs. rewrite M3. unfold sample_pos. assert (-2 <= IZR (z - 2) <= 2) by (split; apply IZR_le; lia). apply Rabs_def1; lra. }
      assert (FAR: forall z s w, Z.abs (z - 2) = 2%Z -> - (15 / 32) <= sub s <= 15 / 32 -> Rabs (w - sample_pos 2 2 0 z s) <= cell 2 -> 7 / 5 <= Rabs w).
      { intros z s w Hz Hs Hw. apply Rabs_le_inv in Hw. unfold sample_pos in Hw. assert (ZC: (z - 2 = 2 \/ z - 2 = -2)%Z) by lia. destruct ZC as [E|E]; rewrite E in Hw; unfold Rabs; destruct (Rcase_abs w); lra. }
      apply sample_lut_local; [lia|apply PB; auto; lia|apply PB; auto; lia|]. intros u v Au Av. rewrite box_zero; [lra|]. destruct (Z.eq_dec (Z.abs (x - 2)) 2); [left; apply (FAR x sx u e Bx Au)|right; apply (FAR y sy v); [lia|exact By|exact Av]]. }
    unfold assign_radius. cbn [andb Z.ltb Z.compare]. set (kk := fun x y : Z => [r0 x y * (1 / e0)]).
    destruct (sorted_lut kk (dim 2) (dim 2) 2 area [energy] photon_threshold) as (SL & IL). unfold lookup_effective_radius.
    destruct (find _ _) as [e|] eqn:F; [|reflexivity]. destruct (find_rev_sorted _ _ e SL F) as (I & _ & _). apply IL in I as (HB & P & _).
    destruct (Z.eq_dec (fst e) 2) as [E2|]; [exfalso|rewrite Z.max_r by lia; reflexivity]. rewrite E2 in P.
    destruct (scan_spec kk (dim 2) (dim 2) (conversion area [energy]) (ring_pixels 2 2) 0) as (_ & _ & [C|((x & y) & (w & q) & IR & H1 & H2 & H3 & C)]); unfold ring_sensitivity in P; [rewrite C in P; lra|].
    apply in_ring in IR; [|lia]. cbn [fst snd] in *. assert (w = 0). { unfold kk in H3. cbn in H3. destruct H3 as [H3|[]]. injection H3 as H3 _. rewrite <- H3. rewrite DARK; [ring| | |auto]; unfold ring in IR; cbn [fst snd] in IR; unfold dim in *; lia. }
    subst w. rewrite C in P. lra.
Qed.
Print Assumptions C58_refuted_shifted.

(** C92 *)
(* the resolved renderer collects for pixel (x, y) the rays through image positions (x + a, y + b), 0 <= a, b < 1 (renderer.ipp:175-180) *)
Definition resolved_in (px py : R) (x y : Z) : Prop := exists a b, 0 <= a < 1 /\ 0 <= b < 1 /\ px = IZR x + a /\ py = IZR y + b.
Lemma int_part_unique p n : IZR n <= p < IZR n + 1 -> Int_part p = n.
Proof. intros H. destruct (base_Int_part p). assert (IZR (Int_part p) < IZR (n + 1)) by (rewrite plus_IZR; lra). assert (IZR n < IZR (Int_part p + 1)) by (rewrite plus_IZR; lra). apply lt_IZR in H2, H3. lia. Qed.
(* positions in the lower left quarter of a pixel: a point source and a resolved object there light the same pixel *)
Theorem C92_quarter_partial : forall px py power x y, IZR x <= px < IZR x + 1 / 2 -> IZR y <= py < IZR y + 1 / 2 ->
  resolved_in px py x y /\ forall rect ws, delta_writes rect (sample_at px py power) = Some ws -> forall lx ly w, In (lx, ly, w) ws -> (lx + fst (fst (fst rect)) = x /\ ly + snd (fst (fst rect)) = y)%Z /\ w = power.
Proof.
  intros px py power x y Hx Hy. split; [exists (px - IZR x), (py - IZR y); repeat split; lra|]. intros (((x0 & y0) & x1) & y1) ws HW lx ly w HI. unfold delta_writes, sample_at in HW. cbn [rx ry pw] in HW.
  rewrite (int_part_unique (px + 1 / 2) x), (int_part_unique (py + 1 / 2) y) in HW by lra. destruct (_ && _)%bool; injection HW as <-; cbn in HI; [|contradiction]. destruct HI as [HI|[]]. injection HI as <- <- <-. cbn. split; [lia|reflexivity].
Qed.
Print Assumptions C92_quarter_partial.
(* elsewhere in the pixel the point source is drawn one pixel further *)
Theorem C92_refuted : forall px py power x y, IZR x + 1 / 2 <= px < IZR x + 1 -> IZR y <= py < IZR y + 1 ->
  resolved_in px py x y /\ forall rect ws, delta_writes rect (sample_at px py power) = Some ws -> forall lx ly w, In (lx, ly, w) ws -> (lx + fst (fst (fst rect)) = x + 1)%Z.
Proof.
  intros px py power x y Hx Hy. split; [exists (px - IZR x), (py - IZR y); repeat split; lra|]. intros (((x0 & y0) & x1) & y1) ws HW lx ly w HI. unfold delta_writes, sample_at in HW. cbn [rx ry pw] in HW.
  rewrite (int_part_unique (px + 1 / 2) (x + 1)) in HW by (rewrite plus_IZR; lra). destruct (_ && _)%bool; injection HW as <-; cbn in HI; [|contradiction]. destruct HI as [HI|[]]. injection HI as <- <- <-. cbn. lia.
Qed.
Print Assumptions C92_refuted.
Example C92_case : IZR 3 + 1 / 2 <= 3.75 < IZR 3 + 1 /\ delta_writes (0, 0, 8, 8)%Z (sample_at 3.75 2.25 1) = Some [(4%Z, 2%Z, 1)].
Proof.
  split; [lra|]. unfold delta_writes, sample_at. cbn [rx ry pw]. rewrite (int_part_unique (3.75 + 1 / 2) 4), (int_part_unique (2.25 + 1 / 2) 2) by lra. reflexivity.
Qed.
