(* C140: the irradiance with which an unresolved object is drawn. *)
From Verif Require Import Common Vec3 SpectralModel LightModel LightProps UnresolvedProps SharedModel.
Import ListNotations.
Open Scope R_scope.

Section Props.
Variable bins : list bin.
Variable kinds : Z -> kind.

(* an event that may write the irradiance of an object *)
Definition writes (e : event) (id : Z) : Prop := match e with BuildView v => In id (map fst (v_instances v)) | SetIrradiance j _ => j = id end.

Lemma resolve_all_other h l lights id : ~ In id (map fst l) -> fst (resolve_all bins kinds h l lights) id = h id.
Proof.
  revert h. induction l as [|[j p] l IH]; intros h N; [reflexivity|]. cbn in N. cbn [resolve_all].
  destruct (resolve bins (kinds j) p lights) as [[x|]| |]; try reflexivity; rewrite IH by tauto; auto. unfold put. destruct (Z.eqb_spec id j); auto. subst. tauto.
Qed.
Lemma apply_other h e id : ~ writes e id -> apply bins kinds h e id = h id.
Proof. destruct e as [v|j x]; cbn [writes apply]; intros N. { apply resolve_all_other. auto. } unfold put. destruct (Z.eqb_spec id j); auto. subst. tauto. Qed.
Lemma history_other l h id : (forall e, In e l -> ~ writes e id) -> history bins kinds l h id = h id.
Proof.
  revert h. induction l as [|e l IH]; intros h N; [reflexivity|]. cbn [history fold_left]. fold (history bins kinds l (apply bins kinds h e)). rewrite IH by (intros; apply N; right; auto). apply apply_other, N. left. auto.
Qed.
Lemma resolve_all_app h a b lights : resolve_all bins kinds h (a ++ b) lights = let '(h', t) := resolve_all bins kinds h a lights in if t then (h', true) else resolve_all bins kinds h' b lights.
Proof.
  revert h. induction a as [|[j p] a IH]; intros h; [cbn; destruct (resolve_all _ _ h b lights); reflexivity|]. cbn [app resolve_all].
  destruct (resolve bins (kinds j) p lights) as [[x|]| |]; auto.
Qed.

(* C140: when a view was built without exception, and since then nothing else wrote the object, every instance is drawn with the irradiance of the object's
   last instance in the view - its own, when the view has the object once. An object of the fixed kind is drawn with the irradiance set last. *)
Theorem C140_drawn : forall h before v after a id pos b x,
  v_instances v = a ++ (id, pos) :: b -> ~ In id (map fst b) ->
  snd (resolve_all bins kinds (history bins kinds before h) (v_instances v) (v_lights v)) = false ->
  (forall e, In e after -> ~ writes e id) ->
  resolve bins (kinds id) pos (v_lights v) = Ok (Some x) ->
  forall p, drawn (history bins kinds (before ++ BuildView v :: after) h) (id, p) = x.
Proof.
  intros h before v after a id pos b x E N T A R p. unfold drawn. cbn [fst]. unfold history. rewrite fold_left_app. cbn [fold_left].
  fold (history bins kinds before h). set (h0 := history bins kinds before h) in *. fold (history bins kinds after (apply bins kinds h0 (BuildView v))). rewrite history_other by auto.
  cbn [apply]. rewrite E, resolve_all_app in *. destruct (resolve_all bins kinds h0 a (v_lights v)) as [h1 [] ]; [discriminate|]. cbn [resolve_all] in *. rewrite R in *.
  rewrite resolve_all_other by auto. unfold put. rewrite Z.eqb_refl. reflexivity.
Qed.
Theorem C140_fixed : forall h l id, kinds id = Fixed ->
  history bins kinds l h id = fold_left (fun cur e => match e with SetIrradiance j x => if (j =? id)%Z then x else cur | _ => cur end) l (h id).
Proof.
  intros h l id K. revert h. induction l as [|e l IH]; intros h; [reflexivity|]. cbn [history fold_left]. fold (history bins kinds l (apply bins kinds h e)). rewrite IH. f_equal.
  destruct e as [v|j x]; cbn [apply].
  - generalize (v_instances v) as li. intros li. revert h. induction li as [|[j p] li IHl]; intros h; [reflexivity|]. cbn [resolve_all].
    destruct (Z.eq_dec j id) as [->|D]; [rewrite K; cbn; apply IHl|].
    destruct (resolve bins (kinds j) p (v_lights v)) as [[x|]| |]; try reflexivity; rewrite IHl; auto. unfold put. destruct (Z.eqb_spec id j); congruence.
  - unfold put. rewrite Z.eqb_sym. destruct (j =? id)%Z; reflexivity.
Qed.
End Props.

(* Refuted: "every instance is drawn with its own irradiance". An emitter instanced 1 m and 2 m away is drawn twice with the irradiance of the last. *)
Definition one_emitter : Z -> kind := fun _ => Emitter [1].
Lemma emit p d : 0 < d -> emitter_irradiance [p] (V3 0 0 d) = [p / (4 * PI * (d * d))].
Proof.
  intros D. unfold emitter_irradiance, each. cbn [map]. assert (vlen (V3 0 0 d) = d) as ->; auto. unfold vlen, dot. cbn [vx vy vz]. rewrite <- (sqrt_Rsqr d) at 3 by lra. f_equal. unfold Rsqr. ring.
Qed.
Lemma emit_diff d d' : 0 < d -> 0 < d' -> d < d' -> emitter_irradiance [1] (V3 0 0 d) <> emitter_irradiance [1] (V3 0 0 d').
Proof.
  intros D D' L E. rewrite !emit in E by auto. injection E as E. pose proof PI_RGT_0 as P.
  assert (1 / (4 * PI * (d' * d')) < 1 / (4 * PI * (d * d))); [|lra]. unfold Rdiv. rewrite !Rmult_1_l. apply Rinv_lt_contravar.
  - assert (0 < d * d) by nra. assert (0 < d' * d') by nra. assert (0 < 4 * PI * (d * d)) by nra. assert (0 < 4 * PI * (d' * d')) by nra. nra.
  - apply Rmult_lt_compat_l; nra.
Qed.
Theorem C140_refuted_instances : forall bins h, let near := (7%Z, V3 0 0 1) in let far := (7%Z, V3 0 0 2) in
  let v := {| v_instances := [near; far]; v_lights := [] |} in let h' := history bins one_emitter [BuildView v] h in
  resolve bins (one_emitter 7) (V3 0 0 1) [] = Ok (Some (emitter_irradiance [1] (V3 0 0 1))) /\
  drawn h' near = emitter_irradiance [1] (V3 0 0 2) /\ drawn h' near <> emitter_irradiance [1] (V3 0 0 1).
Proof.
  intros bins h near far v h'. split; [reflexivity|]. assert (drawn h' near = emitter_irradiance [1] (V3 0 0 2)) as E. { cbn. unfold put. cbn. reflexivity. }
  split; auto. rewrite E. intros X. symmetry in X. revert X. apply emit_diff; lra.
Qed.
(* Refuted: "a view is not changed by building another one". Building the view of another time or camera changes what the first one draws - also when
   building it fails with an exception (here: object 8 is a sphere whose light is not in the view). *)
Definition emitter_and_sphere : Z -> kind := fun i => if (i =? 7)%Z then Emitter [1] else LambertSphere 1 [1] 1 1.
Theorem C140_refuted_views : forall bins h, let i := (7%Z, V3 0 0 1) in
  let v := {| v_instances := [i]; v_lights := [] |} in
  let v' := {| v_instances := [(7%Z, V3 0 0 2); (8%Z, V3 0 0 2)]; v_lights := [] |} in
  let h1 := history bins emitter_and_sphere [BuildView v] h in
  let h2 := history bins emitter_and_sphere [BuildView v; BuildView v'] h in
  snd (resolve_all bins emitter_and_sphere h (v_instances v) (v_lights v)) = false /\ snd (resolve_all bins emitter_and_sphere h1 (v_instances v') (v_lights v')) = true /\
  drawn h1 i = emitter_irradiance [1] (V3 0 0 1) /\ drawn h2 i <> drawn h1 i.
Proof.
  intros bins h i v v' h1 h2. assert (E1 : drawn h1 i = emitter_irradiance [1] (V3 0 0 1)) by reflexivity.
  assert (E2 : drawn h2 i = emitter_irradiance [1] (V3 0 0 2)) by reflexivity.
  repeat split; auto. rewrite E1, E2. intros X. symmetry in X. revert X. apply emit_diff; lra.
Qed.
(* Refuted: "an object is lit by the light instance it was given". It is lit by the first instance of the same light in the view: with two instances of one
   light, giving one or the other makes no difference ... *)
Theorem C140_refuted_light : forall bins r albedo n n' light pos lights H G,
  resolve bins (LambertSphere r albedo n light) pos lights = resolve bins (LambertSphere r albedo n' light) pos lights /\
  resolve bins (Asteroid H G albedo n light) pos lights = resolve bins (Asteroid H G albedo n' light) pos lights.
Proof. intros. split; reflexivity. Qed.
(* ... so a sphere 1 m from the observer, given the instance 3 m away from it, gets the light of another instance of the same lamp 2 m away *)
Lemma sphere_at D : 1 < D -> lambert_irradiance 1 [1] (V3 0 0 1) (Some (SL 1 [1], V3 0 0 (1 - D))) = Ok [PI / (4 * (D * D))].
Proof.
  intros HD. unfold lambert_irradiance. assert (T : vsub (V3 0 0 (1 - D)) (V3 0 0 1) = V3 0 0 (- D)) by (apply v3_eq; cbn; ring).
  rewrite T. assert (L1 : vlen (V3 0 0 (- D)) = D). { unfold vlen, dot. cbn [vx vy vz]. replace (0 * 0 + 0 * 0 + - D * - D) with (Rsqr D) by (unfold Rsqr; ring). apply sqrt_Rsqr. lra. }
  assert (L2 : vlen (V3 0 0 1) = 1). { unfold vlen, dot. cbn [vx vy vz]. replace (0 * 0 + 0 * 0 + 1 * 1) with 1 by ring. apply sqrt_1. }
  rewrite L1, L2. unfold Rleb. destruct (Rle_dec D 0); [lra|]. destruct (Rle_dec 1 0); [lra|]. cbn [orb].
  assert (P : acos (dot (vscale (/ 1) (vscale (-1) (V3 0 0 1))) (normalize (V3 0 0 (- D)))) = 0).
  { unfold normalize. rewrite L1. replace (dot _ _) with 1 by (unfold dot, vscale; cbn [vx vy vz]; field; lra). apply acos_1. }
  rewrite P. unfold irradiance_at. rewrite T. cbn [sl_radius sl_radiance]. unfold Rleb. replace (dot (V3 0 0 (- D)) (V3 0 0 (- D))) with (D * D) by (unfold dot; cbn [vx vy vz]; ring).
  destruct (Rle_dec (D * D) (1 * 1)); [nra|]. unfold each, zip. cbn [map combine fst snd].
  assert (LP : lambert_phase 0 = 1). { unfold lambert_phase. rewrite sin_0, cos_0. pose proof PI_RGT_0. field. lra. }
  rewrite LP. pose proof PI_RGT_0 as PP.
  replace (1 * (PI * 1 * 1) * (1 * PI * (1 * 1 / (D * D))) * 1 / (4 * PI * 1 * 1)) with (PI / (4 * (D * D))) by (field; split; nra).
  assert (0 < PI / (4 * (D * D))) by (apply Rdiv_lt_0_compat; nra).
  match goal with |- (if ?c then _ else _) = _ => assert (c = true) as ->; [|reflexivity] end.
  unfold valid. cbn. unfold Rltb. destruct (Rlt_dec (PI / (4 * (D * D))) 0); [lra|]. reflexivity.
Qed.
Theorem C140_refuted_own_light : forall bins, exists lights mine x y, In mine lights /\ li_node mine = 2%Z /\ li_light mine = 5%Z /\
  lambert_irradiance 1 [1] (V3 0 0 1) (Some (li_sphere mine, li_pos mine)) = Ok x /\
  resolve bins (LambertSphere 1 [1] 2 5) (V3 0 0 1) lights = Ok (Some y) /\ x <> y.
Proof.
  intros bins. exists [ {| li_node := 1; li_light := 5; li_sphere := SL 1 [1]; li_pos := V3 0 0 (1 - 2) |}; {| li_node := 2; li_light := 5; li_sphere := SL 1 [1]; li_pos := V3 0 0 (1 - 3) |} ].
  exists {| li_node := 2; li_light := 5; li_sphere := SL 1 [1]; li_pos := V3 0 0 (1 - 3) |}. eexists _, _. split; [right; left; reflexivity|]. split; [reflexivity|]. split; [reflexivity|].
  split; [apply sphere_at; lra|]. split; [unfold resolve, find_light; cbn [find li_light]; cbn [Z.eqb Pos.eqb option_map li_sphere li_pos]; rewrite sphere_at by lra; reflexivity|].
  intros E. injection E as E. pose proof PI_RGT_0. lra.
Qed.
Print Assumptions C140_drawn.
Print Assumptions C140_fixed.
Print Assumptions C140_refuted_instances.
Print Assumptions C140_refuted_views.
Print Assumptions C140_refuted_light.
Print Assumptions C140_refuted_own_light.
