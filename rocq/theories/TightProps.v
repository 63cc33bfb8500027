(* Consequences of C54, C93 and C147 spelled out in numbers: what a pixel's electrons are, what a light adds at a scattering
   point or at a surface, what each Python unit measures. *)
From Coq Require Import Reals Lra Lia List.
From Verif Require Import Common SpectralModel Vec3 DistortionModel CameraModel SensorModel SensorSpec SensorProofs SensorProps PathModel PathSpec PathProofs.
Import ListNotations.
Open Scope R_scope.

(* C54: the electrons a noiseless pixel responds to are power * exposure / photon energy * efficiency, summed over all bins *)
Definition sum_of (l : list R) : R := fold_right Rplus 0 l.
Theorem C54_sum_over_bins : forall (rng : Type) (gen : R -> rng -> R * rng) s dt frame st, simulate_noise s = false ->
  fst (readout_frame gen s dt frame st) = map (fun px => response s (sum_of (map (fun '(power, energy, qe) => power * dt / energy * qe) px))) frame.
Proof.
  intros rng gen s dt frame st H. rewrite C54_quiet_readout_is_response by auto. apply map_ext. intros px. f_equal.
  induction px as [|[[p e] q] r IH]; cbn; auto. rewrite IH. reflexivity.
Qed.
Print Assumptions C54_sum_over_bins.

(* C93: a light sample adds, in every channel, what it sends through the medium and the surfaces on the way; a light nothing of which
   gets through adds nothing *)
Theorem C93_scattering_light : forall n thr Li pdf phase tr c, List.length thr = n -> List.length Li = n -> List.length tr = n -> (c < n)%nat -> nonneg tr ->
  ch c (nee_volume thr (VL Li pdf phase tr)) = ch c thr * phase * (ch c Li / pdf) * ch c tr.
Proof.
  intros n thr Li pdf phase tr c L1 L2 L3 C N. unfold nee_volume. cbn [v_tr v_phase v_pdf v_Li]. destruct (Rleb (vmax tr) 0) eqn:E.
  - apply Rleb_true in E. rewrite ch_fill by lia. rewrite (vmax_zero tr c) by auto. ring.
  - unfold smul. rewrite ch_zip by (rewrite ?sscale_length, ?zip_length, ?sscale_length; rewrite ?sscale_length; lia).
    rewrite ch_sscale by (rewrite zip_length; rewrite ?sscale_length; lia). rewrite ch_zip by (rewrite ?sscale_length; lia). rewrite ch_sscale by lia. unfold Rdiv. ring.
Qed.
Print Assumptions C93_scattering_light.
Theorem C93_surface_light : forall n thr Li pdf f cosine bpdf tr c, List.length thr = n -> List.length Li = n -> List.length f = n -> List.length tr = n -> (c < n)%nat -> nonneg tr -> 0 < pdf ->
  exists v, nee_surface thr (SLt Li pdf f cosine bpdf tr) = Some v /\
    ch c v = pdf * pdf / (pdf * pdf + bpdf * bpdf) * cosine * ch c thr * (ch c Li / pdf) * ch c f * ch c tr.
Proof.
  intros n thr Li pdf f cosine bpdf tr c L1 L2 L3 L4 C N P. unfold nee_surface. cbn [l_tr l_pdf l_bpdf l_Li l_f l_cos]. destruct (Rleb (vmax tr) 0) eqn:E.
  - apply Rleb_true in E. eexists. split; [reflexivity|]. rewrite ch_fill by lia. rewrite (vmax_zero tr c) by auto. ring.
  - assert (H : heuristic pdf bpdf = Some (pdf * pdf / (pdf * pdf + bpdf * bpdf))). { unfold heuristic. destruct (Req_EM_T _ 0) as [Z|]; auto. exfalso. nra. }
    rewrite H. eexists. split; [reflexivity|].
    assert (LL: List.length (smul (smul thr (sscale (1 / pdf) Li)) f) = n) by (rewrite !smul_length; rewrite ?sscale_length, ?smul_length; rewrite ?sscale_length; lia).
    unfold smul at 1. rewrite ch_zip by (rewrite ?sscale_length, ?LL; lia). rewrite !ch_sscale by (rewrite ?sscale_length, ?LL; lia).
    unfold smul. rewrite !ch_zip by (rewrite ?zip_length, ?sscale_length; rewrite ?sscale_length; lia). rewrite ch_sscale by lia. unfold Rdiv. ring.
Qed.
Print Assumptions C93_surface_light.
Example C93_light_instance : nonneg [1 / 2] /\ ch 0 (nee_volume [1] (VL [2] (1 / 2) (1 / 4) [1 / 2])) = 1 / 2 /\ ch 0 (nee_volume [1] (VL [2] (1 / 2) (1 / 4) [0])) = 0.
Proof.
  assert (N : forall x, 0 <= x -> nonneg [x]) by (intros x Hx y [<-|[]]; auto).
  split; [apply N; lra|]. split; rewrite (C93_scattering_light 1) by (auto; apply N; lra); cbn; lra.
Qed.
