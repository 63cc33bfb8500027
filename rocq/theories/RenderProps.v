(* The properties of the renderer (C25, C26, C29, C30, C63, C64, C65). *)
From Verif Require Import Vec3 RenderModel RenderSpec RenderProofs.

(** C25 *)
(* Full statement: for all tile programs and all complete schedules the per-tile observations are the same. Proved for
   renders without motion blur and without lights, for any number of tiles and samples; false otherwise *)
Theorem C25_schedule_independent_partial : forall (draws : list (list R)) sched1 sched2,
  let progs := map (tile_program false 0) draws in
  finished (snd (run sched1 (fst (start progs)) (snd (start progs)))) ->
  finished (snd (run sched2 (fst (start progs)) (snd (start progs)))) ->
  image_of sched1 progs = image_of sched2 progs.
Proof.
  intros draws s1 s2 progs F1 F2.
  assert (L : forall t, In t (snd (start progs)) -> local_only (todo t)).
  { intros t Ht. cbn in Ht. apply in_map_iff in Ht as (p & <- & Hp). unfold progs in Hp. apply in_map_iff in Hp as (d & <- & _). cbn.
    intros a Ha. unfold tile_program in Ha. apply in_flat_map in Ha as (r & _ & Ha). cbn in Ha. intuition. }
  assert (G : forall sched, finished (snd (run sched (fst (start progs)) (snd (start progs)))) ->
     image_of sched progs = map (fun t => repeat (OTime 0) (List.length (todo t))) (snd (start progs))).
  { intros sched F. unfold image_of. cbn [start fst snd] in *. cbv zeta.
    pose proof (run_local sched {| stime := 0; sdraws := 0 |} (map (fun p => {| todo := p; seen := [] |}) progs) L) as RL.
    destruct (run sched {| stime := 0; sdraws := 0 |} (map (fun p => {| todo := p; seen := [] |}) progs)) as [s' ts'].
    cbn [snd] in *. destruct RL as [_ RL].
    assert (S0 : forall t, In t (map (fun p => {| todo := p; seen := [] |}) progs) -> seen t = []).
    { intros t Ht. apply in_map_iff in Ht as (p & <- & _). reflexivity. }
    clear L F1 F2. induction RL as [|t t' ts ts' (k & A & B) RL IH]; auto. cbn [map]. f_equal.
    - rewrite B, (S0 t) by (left; auto). cbn [app stime]. rewrite A, (F t') by (left; auto). rewrite app_nil_r, repeat_length. reflexivity.
    - apply IH. + intros x Hx. apply F. right; auto. + intros x Hx. apply S0. right; auto. }
  rewrite (G s1 F1), (G s2 F2). reflexivity.
Qed.
Print Assumptions C25_schedule_independent_partial.

(* with motion blur the shared time variable makes the image depend on the schedule: two tiles of one sample each *)
Theorem C25_time_race : exists draws sched1 sched2,
  let progs := map (tile_program true 0) draws in
  finished (snd (run sched1 (fst (start progs)) (snd (start progs)))) /\
  finished (snd (run sched2 (fst (start progs)) (snd (start progs)))) /\
  image_of sched1 progs <> image_of sched2 progs.
Proof.
  exists [[1 / 4]; [3 / 4]], [0; 0; 1; 1]%nat, [0; 1; 0; 1]%nat. cbv zeta. repeat split.
  - intros t Ht. cbn in Ht. intuition; subst; reflexivity.
  - intros t Ht. cbn in Ht. intuition; subst; reflexivity.
  - cbn. intros E. injection E as E. lra.
Qed.
Print Assumptions C25_time_race.

(* with lights the shared sampler makes the image depend on the schedule even without motion blur *)
Theorem C25_sampler_race : exists draws sched1 sched2,
  let progs := map (tile_program false 1) draws in
  finished (snd (run sched1 (fst (start progs)) (snd (start progs)))) /\
  finished (snd (run sched2 (fst (start progs)) (snd (start progs)))) /\
  image_of sched1 progs <> image_of sched2 progs.
Proof.
  exists [[1 / 4]; [3 / 4]], [0; 0; 1; 1]%nat, [1; 1; 0; 0]%nat. cbv zeta. repeat split.
  - intros t Ht. cbn in Ht. intuition; subst; reflexivity.
  - intros t Ht. cbn in Ht. intuition; subst; reflexivity.
  - cbn. discriminate.
Qed.
Print Assumptions C25_sampler_race.

(** C26 *)
(* Full statement: for every projection, number of samples and list of visible intervals, the weights are non-negative
   and sum to visible_fraction. Proved: they are non-negative and sum to 1 over each interval, hence to the visible
   fraction for a source visible throughout; false for partly visible sources *)
Theorem C26_weights_partial : forall pix N i, fst i < snd i ->
  sum (interval_weights pix N i) = 1 /\ forall x, In x (interval_weights pix N i) -> 0 <= x.
Proof. exact interval_weights_ok. Qed.
Print Assumptions C26_weights_partial.
Theorem C26_always_visible : forall pix N,
  sum (trail_weights pix N [(0, 1)]) = visible_fraction [(0, 1)] /\ forall x, In x (trail_weights pix N [(0, 1)]) -> 0 <= x.
Proof.
  intros pix N. unfold trail_weights. cbn [flat_map]. rewrite app_nil_r.
  destruct (interval_weights_ok pix N (0, 1)) as [A B]; [cbn; lra|]. split; auto. rewrite A. cbn. lra.
Qed.
Print Assumptions C26_always_visible.
(* for any source the total is the number of visible intervals, whatever their length *)
Theorem C26_total_counts_intervals : forall pix N l, (forall i, In i l -> fst i < snd i) ->
  sum (trail_weights pix N l) = INR (List.length l).
Proof.
  intros pix N. induction l as [|i l IH]; intros H; [reflexivity|]. unfold trail_weights in *. cbn [flat_map].
  rewrite sum_app, IH by (intros; apply H; right; auto). destruct (interval_weights_ok pix N i) as [A _]; [apply H; left; auto|].
  rewrite A. change (List.length (i :: l)) with (S (List.length l)). rewrite S_INR. ring.
Qed.
Print Assumptions C26_total_counts_intervals.
Theorem C26_partly_visible_overcounted :
  ~ (forall pix N l, (forall i, In i l -> 0 <= fst i < snd i /\ snd i <= 1) -> sum (trail_weights pix N l) = visible_fraction l).
Proof.
  intros H. specialize (H (fun _ => (0, 0)) 2%nat [(0, 1 / 4); (3 / 4, 1)]).
  rewrite C26_total_counts_intervals in H.
  - cbn in H. assert (1 + 1 = 1 / 4 - 0 + (1 - 3 / 4 + 0)); [apply H|lra].
    intros i [<-|[<-|[]]]; cbn; lra.
  - intros i [<-|[<-|[]]]; cbn; lra.
Qed.
Print Assumptions C26_partly_visible_overcounted.
(* the sub-samples: strictly increasing from the start to the end of the interval, and at most 0.75 pixel apart when the
   subdivision ended before its limit *)
Theorem C26_trail_samples : forall pix N i, fst i < snd i ->
  increasing (trail_params pix N i) /\ hd_error (trail_params pix N i) = Some (fst i) /\ last (trail_params pix N i) 0 = snd i /\
  (any_far pix (trail_params pix N i) = false -> steps_within pix (3 / 4) (trail_params pix N i)).
Proof.
  intros pix N [ts te] H. cbn in H. pose proof (subdivide_inv pix ts te 12 _ (init_inv ts te N H)) as (A & r & E & Ne & L).
  unfold trail_params. cbn [fst snd]. split; [exact A|]. split; [rewrite E; reflexivity|]. split; [exact L|]. apply not_far_steps.
Qed.
Print Assumptions C26_trail_samples.

(** C29 *)
Theorem C29_veiling_conserves : forall alpha setting img, img <> [] -> set_veiling_glare alpha = Some setting ->
  sum (apply_glare setting img) = sum img /\
  ((forall p, In p img -> 0 <= p) -> forall p, In p (apply_glare setting img) -> 0 <= p) /\
  List.length (apply_glare setting img) = List.length img.
Proof.
  intros alpha setting img Hne Hs. unfold set_veiling_glare in Hs.
  destruct (Rltb alpha 0 || Rltb 1 alpha)%bool eqn:E; [discriminate|]. injection Hs as <-.
  apply orb_false_iff in E as [E1 E2]. rb. unfold apply_glare. cbn [fst snd].
  destruct (Rltb 0 alpha); [|repeat split; auto]. split; [apply veil_sum; auto|]. split; [|unfold veil; rewrite map_length; auto].
  intros Hp p Hin. unfold veil in Hin. apply in_map_iff in Hin as (q & <- & Hq). rewrite lsum_sum.
  assert (0 < INR (List.length img)) by (apply lt_0_INR; destruct img; [tauto|cbn; lia]).
  assert (0 <= sum img) by (apply sum_nonneg; auto). specialize (Hp q Hq).
  assert (0 <= alpha * sum img / INR (List.length img)).
  { apply Rmult_le_pos; [apply Rmult_le_pos; auto | apply Rlt_le, Rinv_0_lt_compat; auto]. }
  assert (0 <= q * (1 - alpha)) by (apply Rmult_le_pos; lra). lra.
Qed.
Print Assumptions C29_veiling_conserves.
Theorem C29_rejects_bad_alpha : forall alpha, alpha < 0 \/ 1 < alpha -> set_veiling_glare alpha = None.
Proof.
  intros alpha H. unfold set_veiling_glare. destruct (Rltb alpha 0) eqn:E1, (Rltb 1 alpha) eqn:E2; rb; auto. lra.
Qed.
Print Assumptions C29_rejects_bad_alpha.

(** C30 *)
(* Full statement: for all non-negative f, g not both zero the two weights are in [0,1] and sum to 1, and both are 0 when
   f = g = 0. Proved when no square or sum overflows; false for two zero densities (NaN), for two densities whose squares
   overflow (both weights 1) and for two whose squares do not but whose sum of squares does (both weights 0) *)
Theorem C30_partition_of_unity_partial : forall fmax f g, 0 <= f -> 0 <= g -> 0 < f \/ 0 < g -> f * f + g * g <= fmax ->
  exists a b, power_heuristic fmax f g = Fin a /\ power_heuristic fmax g f = Fin b /\
    0 <= a <= 1 /\ 0 <= b <= 1 /\ a + b = 1.
Proof.
  intros fmax f g Hf Hg Hp Hm.
  assert (F2 : 0 <= f * f) by (apply Rmult_le_pos; auto). assert (G2 : 0 <= g * g) by (apply Rmult_le_pos; auto).
  assert (S : 0 < f * f + g * g) by nra.
  assert (Q : forall x y, 0 <= x -> 0 <= y -> 0 < x + y -> x + y <= fmax ->
     match rnd fmax x with Inf => Fin 1 | f2 => xdiv f2 (xadd fmax f2 (rnd fmax y)) end = Fin (x / (x + y))).
  { intros x y Hx Hy Hs Hxy. unfold rnd. destruct (Rltb fmax x) eqn:E1; rb; [lra|]. destruct (Rltb fmax y) eqn:E2; rb; [lra|].
    cbn [xadd]. unfold rnd. destruct (Rltb fmax (x + y)) eqn:E3; rb; [lra|]. cbn [xdiv]. destruct (Rltb 0 (x + y)) eqn:E4; rb; [auto|lra]. }
  exists (f * f / (f * f + g * g)), (g * g / (g * g + f * f)). unfold power_heuristic.
  split; [apply Q; auto|]. split; [apply Q; auto; lra|].
  assert (D : forall x y, 0 <= x -> 0 <= y -> 0 < x + y -> 0 <= x / (x + y) <= 1).
  { intros x y Hx Hy Hs. split; [apply Rmult_le_pos; [auto|apply Rlt_le, Rinv_0_lt_compat; auto]|].
    apply Rmult_le_reg_r with (x + y); auto. unfold Rdiv. rewrite Rmult_assoc, Rinv_l, Rmult_1_r by lra. lra. }
  split; [apply D; auto|]. split; [apply D; auto; lra|]. rewrite (Rplus_comm (g * g)). field. lra.
Qed.
Print Assumptions C30_partition_of_unity_partial.
Theorem C30_degenerate_cases : forall fmax, 0 < fmax ->
  power_heuristic fmax 0 0 = NaN /\
  (forall f g, fmax < f * f -> fmax < g * g -> power_heuristic fmax f g = Fin 1 /\ power_heuristic fmax g f = Fin 1) /\
  (forall f, f * f <= fmax -> fmax < f * f + f * f -> power_heuristic fmax f f = Fin 0).
Proof.
  intros fmax Hm. repeat split.
  - unfold power_heuristic, rnd. replace (0 * 0) with 0 by ring. destruct (Rltb fmax 0) eqn:E; rb; [lra|].
    cbn [xadd]. unfold rnd. replace (0 + 0) with 0 by ring. destruct (Rltb fmax 0) eqn:E'; rb; [lra|]. cbn [xdiv].
    destruct (Rltb 0 0) eqn:E2; rb; [lra|]. reflexivity.
  - unfold power_heuristic, rnd. destruct (Rltb fmax (f * f)) eqn:E; rb; [auto|lra].
  - unfold power_heuristic, rnd. destruct (Rltb fmax (g * g)) eqn:E; rb; [auto|lra].
  - intros f H1 H2. unfold power_heuristic, rnd. destruct (Rltb fmax (f * f)) eqn:E; rb; [lra|]. cbn [xadd]. unfold rnd.
    destruct (Rltb fmax (f * f + f * f)) eqn:E2; rb; [reflexivity|lra].
Qed.
Print Assumptions C30_degenerate_cases.

(** C63 *)
Theorem C63_irradiance_interpolation : forall irr t, irr <> [] -> 0 <= t <= 1 ->
  exists v, interpolate_irradiances irr t = Some v /\
    (exists a b, In a irr /\ In b irr /\ Rmin a b <= v <= Rmax a b).
Proof. exact interp_ok. Qed.
Print Assumptions C63_irradiance_interpolation.
Theorem C63_irradiance_at_samples : forall irr k v, (2 <= List.length irr)%nat -> nth_error irr k = Some v ->
  interpolate_irradiances irr (INR k / INR (List.length irr - 1)) = Some v.
Proof. exact interp_at_sample. Qed.
Print Assumptions C63_irradiance_at_samples.

(** C64 *)
(* position component: the interpolation of transforms uses the same formula as the irradiance one *)
Lemma interp_transform_pos : forall rot (ident : rot) l t (pr : vec3 -> R) ,
  (forall a b, pr (vadd a b) = pr a + pr b) -> (forall k a, pr (vscale k a) = k * pr a) ->
  l <> [] -> option_map (fun x => pr (tpos x)) (interpolate_transform ident l t) = interpolate_irradiances (map (fun x => pr (tpos x)) l) t.
Proof.
  intros rot ident l t pr Ha Hs Hne. destruct l as [|x [|y l]]; [tauto|reflexivity|].
  unfold interpolate_transform, interpolate_irradiances. rewrite map_length.
  destruct (Nat.eqb_spec (List.length (x :: y :: l)) 1) as [E|E]; [cbn in E; lia|].
  set (lo := lerp_index (List.length (x :: y :: l)) t). set (sc := t * INR (List.length (x :: y :: l) - 1)).
  rewrite !nth_error_map. destruct (nth_error (x :: y :: l) lo) as [a|]; [|reflexivity].
  destruct (nth_error (x :: y :: l) (lo + 1)) as [b|]; [|reflexivity].
  cbn [option_map tpos]. f_equal. rewrite Ha, !Hs. ring.
Qed.
Theorem C64_light_position : forall rot (ident : rot) l t, l <> [] -> 0 <= t <= 1 ->
  exists r, interpolate_transform ident l t = Some r /\
   (exists a b, In a l /\ In b l /\ Rmin (vx (tpos a)) (vx (tpos b)) <= vx (tpos r) <= Rmax (vx (tpos a)) (vx (tpos b))) /\
   (exists a b, In a l /\ In b l /\ Rmin (vy (tpos a)) (vy (tpos b)) <= vy (tpos r) <= Rmax (vy (tpos a)) (vy (tpos b))) /\
   (exists a b, In a l /\ In b l /\ Rmin (vz (tpos a)) (vz (tpos b)) <= vz (tpos r) <= Rmax (vz (tpos a)) (vz (tpos b))).
Proof.
  intros rot ident l t Hne Ht.
  assert (G : forall pr, (forall a b, pr (vadd a b) = pr a + pr b) -> (forall k a, pr (vscale k a) = k * pr a) ->
    exists r, interpolate_transform ident l t = Some r /\ exists a b, In a l /\ In b l /\ Rmin (pr (tpos a)) (pr (tpos b)) <= pr (tpos r) <= Rmax (pr (tpos a)) (pr (tpos b))).
  { intros pr Ha Hs. pose proof (interp_transform_pos rot ident l t pr Ha Hs Hne) as E.
    destruct (interp_ok (map (fun x => pr (tpos x)) l) t) as (v & Ev & a & b & Ia & Ib & B); auto.
    { intros X. apply map_eq_nil in X. tauto. }
    rewrite Ev in E. destruct (interpolate_transform ident l t) as [r|]; [|discriminate]. cbn in E. injection E as E.
    exists r. split; auto. apply in_map_iff in Ia as (xa & <- & Ia). apply in_map_iff in Ib as (xb & <- & Ib).
    exists xa, xb. rewrite E. auto. }
  destruct (G vx) as (r & E & X); auto. destruct (G vy) as (r2 & E2 & Y); auto. destruct (G vz) as (r3 & E3 & Z); auto.
  assert (r2 = r) by congruence. assert (r3 = r) by congruence. subst. exists r. repeat split; auto.
Qed.
Print Assumptions C64_light_position.
Theorem C64_light_position_at_samples : forall rot (ident : rot) l k x, (2 <= List.length l)%nat -> nth_error l k = Some x ->
  exists r, interpolate_transform ident l (INR k / INR (List.length l - 1)) = Some r /\ tpos r = tpos x.
Proof.
  intros rot ident l k x Hn Hk.
  assert (Hne : l <> []) by (intros ->; cbn in Hn; lia).
  assert (G : forall pr, (forall a b, pr (vadd a b) = pr a + pr b) -> (forall c a, pr (vscale c a) = c * pr a) ->
    exists r, interpolate_transform ident l (INR k / INR (List.length l - 1)) = Some r /\ pr (tpos r) = pr (tpos x)).
  { intros pr Ha Hs. pose proof (interp_transform_pos rot ident l (INR k / INR (List.length l - 1)) pr Ha Hs Hne) as E.
    pose proof (interp_at_sample (map (fun x => pr (tpos x)) l) k (pr (tpos x))) as I. rewrite map_length in I.
    rewrite I in E; auto. 2:{ rewrite nth_error_map, Hk. reflexivity. }
    destruct (interpolate_transform ident l (INR k / INR (List.length l - 1))) as [r|]; [|discriminate]. cbn in E. injection E as E. eauto. }
  destruct (G vx) as (r & E & X); auto. destruct (G vy) as (r2 & E2 & Y); auto. destruct (G vz) as (r3 & E3 & Z); auto.
  assert (r2 = r) by congruence. assert (r3 = r) by congruence. subst. exists r. split; auto. apply v3_eq; auto.
Qed.
Print Assumptions C64_light_position_at_samples.
(* but rotation and scale are lost as soon as there are two time samples: whatever the samples, the result has the
   identity rotation and unit scale *)
Theorem C64_rotation_and_scale_lost : forall rot (ident : rot) l t r, (2 <= List.length l)%nat ->
  interpolate_transform ident l t = Some r -> trot r = ident /\ tscale r = V3 1 1 1.
Proof.
  intros rot ident l t r Hn H. destruct l as [|x [|y l]]; try (cbn in Hn; lia).
  unfold interpolate_transform in H. destruct (nth_error _ _); [|discriminate]. destruct (nth_error _ _); [|discriminate].
  injection H as <-. auto.
Qed.
Print Assumptions C64_rotation_and_scale_lost.

(** C65 *)
(* the running statistics of a pixel are those of a prefix of its samples: all of them, unless dynamic sampling is on, at
   least min_spp samples were drawn and the stopping rule held. NaN samples do not count *)
Theorem C65_pixel_statistics : forall dynamic min_spp threshold xs,
  let a := sample_loop dynamic min_spp (stop_rule threshold) 0 xs acc0 in
  exists pre post, xs = pre ++ post /\ taken a = List.length (accepted pre) /\
    (post <> [] -> dynamic = true /\ (min_spp <= List.length pre)%nat /\ stop_rule threshold a = true) /\
    (accepted pre <> [] -> mean a = average (accepted pre) /\ M2 a = sq_dev (accepted pre) /\ averaged a = Some (average (accepted pre))).
Proof.
  intros dynamic ms th xs a.
  assert (I0 : welford_inv [] acc0) by (unfold welford_inv, acc0; cbn; repeat split; ring).
  destruct (loop_prefix dynamic ms (stop_rule th) xs 0 [] acc0 I0) as (pre & post & E & W & S). fold a in W, S. cbn [app] in W.
  exists pre, post. split; auto. split; [apply W|]. split.
  - intros P. destruct (S P) as (Q1 & Q2 & Q3). cbn in Q2. auto.
  - intros Ne. apply welford_final; auto.
Qed.
Print Assumptions C65_pixel_statistics.
(* a pixel all of whose samples are NaN has no defined average *)
Theorem C65_all_nan : forall dynamic min_spp stop xs, accepted xs = [] ->
  averaged (sample_loop dynamic min_spp stop 0 xs acc0) = None.
Proof.
  intros dynamic ms stop xs. generalize 0%nat. induction xs as [|[x|] xs IH]; intros s H; cbn in H; try discriminate; auto.
  cbn [sample_loop]. auto.
Qed.
Print Assumptions C65_all_nan.

(** Non-vacuity *)
Example C25_ex : let progs := map (tile_program false 0) [[1 / 4; 1 / 2]; [3 / 4]] in
  finished (snd (run [1; 0; 0]%nat (fst (start progs)) (snd (start progs)))) /\
  image_of [1; 0; 0]%nat progs = [[OTime 0; OTime 0]; [OTime 0]].
Proof. cbv zeta. split; [|reflexivity]. intros t Ht. cbn in Ht. intuition; subst; reflexivity. Qed.
Example C29_ex : exists s, set_veiling_glare (1 / 4) = Some s /\ apply_glare s [1; 3] = [5 / 4; 11 / 4].
Proof.
  unfold set_veiling_glare. destruct (Rltb (1 / 4) 0) eqn:E1; rb; [lra|]. destruct (Rltb 1 (1 / 4)) eqn:E2; rb; [lra|].
  eexists. split; [reflexivity|]. unfold apply_glare. cbn [fst snd]. destruct (Rltb 0 (1 / 4)) eqn:E3; rb; [|lra].
  unfold veil, lsum. cbn [map fold_left List.length INR]. f_equal; [lra|]. f_equal; lra.
Qed.
Example C30_ex : 0 < 1 \/ 0 < 2. Proof. lra. Qed.
Example C65_ex : accepted [Some 1; None; Some 3] = [1; 3] /\ average [1; 3] = 2 /\ sq_dev [1; 3] = 2.
Proof. unfold sq_dev, average. cbn. repeat split; field. Qed.
