(** * C150: loading a model file puts the file's triangles, materials and placements into the scene. *)
From Verif Require Import Common Vec3 TransformModel TransformSpec TransformProofs SurfaceModel SurfaceProps RegistryModel RegistryProofs LoadModel LoadSpec LoadProofs.
Open Scope R_scope.
Open Scope list_scope.

(* every mesh of the file becomes one geometry and one primitive, in the file's order. The triangles of the geometry are the
   three-cornered faces, in order, and show the file's positions, normals, texture coordinates, colours and tangents
   everywhere; the primitive has the mesh's material *)
Theorem C150_triangles : forall conv one stem name f s s' k, Forall complete (f_meshes f) -> room s f -> load_model conv one stem name (Some f) s = (s', Ok k) ->
  List.length (l_geoms s') = (List.length (l_geoms s) + List.length (f_meshes f))%nat /\ List.length (l_prims s') = (List.length (l_prims s) + List.length (f_meshes f))%nat /\
  List.length (l_mats s') = (List.length (l_mats s) + List.length (f_materials f))%nat /\
  forall j m, nth_error (f_meshes f) j = Some m -> exists gn pn g,
    nth_error (l_geoms s') (List.length (l_geoms s) + j) = Some (gn, g) /\
    nth_error (l_prims s') (List.length (l_prims s) + j) = Some (pn, ((List.length (l_geoms s) + j)%nat, (List.length (l_mats s) + am_material m)%nat)) /\
    (am_material m < List.length (f_materials f))%nat /\
    triangle_count g = List.length (triangles (am_faces m)) /\
    forall t a b c, nth_error (triangles (am_faces m)) t = Some (a, b, c) -> forall u v, mesh_surface g t u v = Ok (file_surface conv one m a b c u v).
Proof.
  intros conv one stem name f s s' k C R E. destruct (load_cases conv one stem name f s C R) as (nm & fr & bs & mqs & gs & qs & ns & n & o & E' & _ & LM & H).
  rewrite E in E'. injection E' as -> <-. destruct H as [(L & _ & G & Q & J & _)|(_ & [=])]. cbn [l_geoms l_prims l_mats]. rewrite !app_length, <- (forall2_len _ _ _ G), Q, LM. split; auto. split; auto. split; auto.
  intros j m N. assert (JL: (j < List.length (f_meshes f))%nat) by (apply nth_error_Some; congruence).
  assert (X: exists g, nth_error gs j = Some g /\ snd g = the_mesh conv one m).
  { clear -G N. revert j N. induction G as [|a b l l' H G IH]; intros [|j] N; try discriminate; cbn in *; [injection N as ->; eauto|eauto]. }
  destruct X as ((gn & g) & X & EG). cbn in EG. subst g. destruct (J j m N) as (pn & P).
  assert (MO: mesh_ok (List.length (f_materials f)) m) by (destruct L as (L & _); rewrite Forall_forall in L; apply L, nth_error_In with j; auto). destruct MO as (IO & MO).
  exists gn, pn, (the_mesh conv one m). rewrite !nth_error_app2 by lia. replace (List.length (l_geoms s) + j - List.length (l_geoms s))%nat with j by lia. replace (List.length (l_prims s) + j - List.length (l_prims s))%nat with j by lia.
  repeat split; auto. { apply the_mesh_count. } intros t a b c T u v. apply the_mesh_surface; auto. rewrite Forall_forall in C. apply C, nth_error_In with j; auto.
Qed.
Print Assumptions C150_triangles.

(* the model's graph places exactly what the file places: one instance for each placement, of the primitive made from that mesh,
   and where the matrices on the way are scaled rotations the instance puts every point where the matrices do *)
Theorem C150_places : forall conv one stem name f s s' k, Forall complete (f_meshes f) -> room s f -> load_model conv one stem name (Some f) s = (s', Ok k) ->
  exists nm fr, nth_error (l_models s') k = Some (nm, fr) /\
  Forall2 (fun c d => snd d = (List.length (l_prims s) + snd c)%nat /\ List.length (fst d) = List.length (fst c) /\
                      (Forall scaled_rotation (fst c) -> forall p, by_frames (fst d) p = by_matrices (fst c) p)) (file_places f) (frame_places [] fr).
Proof.
  intros conv one stem name f s s' k C R E. destruct (load_cases conv one stem name f s C R) as (nm & fr & bs & mqs & gs & qs & ns & n & o & E' & _ & LM & H).
  rewrite E in E'. injection E' as -> <-. destruct H as [(L & [= ->] & _ & _ & _ & P)|(_ & [=])]. exists nm, fr. cbn [l_models]. rewrite nth_error_app2, Nat.sub_diag by auto. split; auto.
  revert P. generalize (file_places f), (frame_places [] fr). intros l l' P. induction P as [|(c & i) (d & p) l l' (A & B) P IH]; constructor; auto. cbn [fst snd] in *. clear IH P.
  split. { assert (IL: (i < List.length (f_meshes f))%nat) by (rewrite <- (seq_length (List.length (f_meshes f)) (List.length (l_prims s))); apply nth_error_Some; congruence).
    rewrite (nth_error_nth' _ 0%nat) in B by (rewrite seq_length; auto). rewrite seq_nth in B by auto. congruence. }
  split; [symmetry; apply (forall2_len _ _ _ A)|]. intros F q. clear B. induction A as [|M x c d MX A IH]; auto. inversion F as [|? ? SR F']; subst. cbn [by_frames by_matrices fold_right]. fold (by_frames d q) (by_matrices c q). rewrite IH by auto.
  destruct SR as (r & sc & HR & X & Y & Z & E0 & E1 & E2). destruct (C103_faithful_partial r sc (k3 M) HR X Y Z) as (x' & CX & FX). unfold convert_matrix in MX. rewrite E0, E1, E2, CX in MX. injection MX as ->.
  rewrite FX. unfold matrix_point, affine. rewrite E0, E1, E2. auto.
Qed.
Print Assumptions C150_places.

(* a readable file is loaded exactly when its triangles have their vertices, its meshes their materials, its nodes their meshes
   and every node matrix is accepted; otherwise the call throws *)
Theorem C150_returns : forall conv one stem name f s, Forall complete (f_meshes f) -> room s f ->
  (loadable f /\ exists s', load_model conv one stem name (Some f) s = (s', Ok (List.length (l_models s)))) \/
  (~ loadable f /\ exists s', load_model conv one stem name (Some f) s = (s', Throws)).
Proof.
  intros conv one stem name f s C R. destruct (load_cases conv one stem name f s C R) as (nm & fr & bs & mqs & gs & qs & ns & n & o & -> & _ & LM & H).
  destruct H as [(L & -> & _)|(L & ->)]; [left|right]; eauto.
Qed.
Print Assumptions C150_returns.

(* whatever the outcome, everything that was in the scene is still there, under its name, and handles keep their meaning *)
Theorem C150_kept : forall conv one stem name file s s' o, (forall f, file = Some f -> Forall complete (f_meshes f) /\ room s f) -> load_model conv one stem name file s = (s', o) ->
  (exists q, l_models s' = l_models s ++ q) /\ (exists q, l_mats s' = l_mats s ++ q) /\ (exists q, l_bsdfs s' = l_bsdfs s ++ q) /\
  (exists q, l_geoms s' = l_geoms s ++ q) /\ (exists q, l_prims s' = l_prims s ++ q) /\ (exists q, l_nodes s' = l_nodes s ++ q).
Proof.
  intros conv one stem name [f|] s s' o H E.
  - destruct (H f eq_refl) as (C & R). destruct (load_cases conv one stem name f s C R) as (nm & fr & bs & mqs & gs & qs & ns & n & o' & E' & _). rewrite E in E'. injection E' as -> <-. cbn. repeat split; eauto.
  - cbn in E. inversion E; subst. repeat split; exists []; rewrite app_nil_r; auto.
Qed.
(* a missing or unreadable file changes nothing *)
Theorem C150_unreadable : forall conv one stem name s, load_model conv one stem name None s = (s, Throws).
Proof. reflexivity. Qed.

Lemma contains_has {A} (l : list (string * A)) n : contains n (map (fun p => (fst p, 0%N)) l) = true <-> has_name l n.
Proof. rewrite contains_in, map_map. reflexivity. Qed.
(* the name: the one asked for (the file's when none is given) if it is free, else the first free one of name_1, name_2, ... *)
Theorem C150_name : forall conv one stem name f s, Forall complete (f_meshes f) -> room s f -> wanted stem name <> EmptyString ->
  exists nm fr, l_models (fst (load_model conv one stem name (Some f) s)) = l_models s ++ [(nm, fr)] /\ ~ has_name (l_models s) nm /\
  (~ has_name (l_models s) (wanted stem name) -> nm = wanted stem name) /\
  (has_name (l_models s) (wanted stem name) -> exists i, (1 <= i)%N /\ nm = (wanted stem name ++ "_" ++ dec i)%string /\
     forall h, (1 <= h < i)%N -> has_name (l_models s) (wanted stem name ++ "_" ++ dec h)%string).
Proof.
  intros conv one stem name f s C R W. destruct (load_cases conv one stem name f s C R) as (nm & fr & bs & mqs & gs & qs & ns & n & o & -> & E & _). cbn [fst l_models].
  exists nm, fr. split; auto. unfold add_item in E. destruct (String.eqb_spec (wanted stem name) "") as [|_]; [congruence|].
  assert (SM: (N.of_nat (List.length (map (fun p => (fst p, 0%N)) (l_models s))) < int_max - 1)%N) by (rewrite map_length; destruct R as (R & _); unfold small in R; lia).
  destruct (make_unique_spec _ (wanted stem name) SM) as [(A & B)|(A & i & B & I & D & F)]; rewrite B in E; cbn [obind] in E; injection E as E; apply app_inv_head in E; injection E as <-.
  - split; [rewrite <- contains_has; congruence|]. split; auto. intros H. apply contains_has in H. congruence.
  - split; [rewrite <- contains_has; congruence|]. split; [intros H; contradict H; apply contains_has; auto|]. intros _. exists i. split; auto. split; auto. intros h H. apply contains_has, F; lia.
Qed.
Print Assumptions C150_name.

(** Where the code falls short *)
(* full statement: a load that throws leaves the scene as it was. Refuted: for every readable file that cannot be loaded a model of that
   name stays in the scene, and the repaired file is then loaded under another name *)
Theorem C150_refuted_atomic : forall conv one stem name f s, Forall complete (f_meshes f) -> room s f -> ~ loadable f -> wanted stem name <> EmptyString -> ~ has_name (l_models s) (wanted stem name) ->
  exists s1 fr, load_model conv one stem name (Some f) s = (s1, Throws) /\ l_models s1 = l_models s ++ [(wanted stem name, fr)] /\ s1 <> s /\
  forall g, Forall complete (f_meshes g) -> room s1 g -> exists nm fr', l_models (fst (load_model conv one stem name (Some g) s1)) = l_models s1 ++ [(nm, fr')] /\ nm <> wanted stem name.
Proof.
  intros conv one stem name f s C R NL W H. destruct (C150_returns conv one stem name f s C R) as [(L & _)|(_ & s1 & E)]; [contradiction|].
  destruct (C150_name conv one stem name f s C R W) as (nm & fr & M & _ & FN & _). rewrite E in M. cbn [fst] in M. rewrite (FN H) in M.
  exists s1, fr. split; auto. split; auto. split. { intros ->. apply (f_equal (@List.length _)) in M. rewrite app_length in M. cbn in M. lia. }
  intros g Cg Rg. destruct (C150_name conv one stem name g s1 Cg Rg W) as (nm' & fr' & M' & NN & _). exists nm', fr'. split; auto. intros ->. apply NN. unfold has_name. rewrite M, map_app. apply in_or_app. right. cbn. auto.
Qed.
Print Assumptions C150_refuted_atomic.

Definition unit_matrix : mat4 := M4 (V3 1 0 0) (V3 0 1 0) (V3 0 0 1) vzero.
Lemma unit_accepted : accepted unit_matrix.
Proof.
  apply accepted_iff. destruct (C103_faithful_partial ident (V3 1 1 1) vzero) as (x & X & _).
  - split; intros u v; [unfold dot|]; cbn; [ring|]. apply v3_eq; cbn; ring.
  - cbn [vx]. rewrite <- Rinv_1. apply Rinv_lt_contravar; [rewrite Rmult_1_l; apply pow_lt; lra|cbn; lra].
  - cbn [vy]. rewrite <- Rinv_1. apply Rinv_lt_contravar; [rewrite Rmult_1_l; apply pow_lt; lra|cbn; lra].
  - cbn [vz]. rewrite <- Rinv_1. apply Rinv_lt_contravar; [rewrite Rmult_1_l; apply pow_lt; lra|cbn; lra].
  - exists x. unfold convert_matrix. rewrite <- X. f_equal; apply v3_eq; cbn; ring.
Qed.
Definition tri_mesh (faces : list (list nat)) (mat : nat) : ai_mesh := AM "m" [vzero; V3 1 0 0; V3 0 1 0; V3 1 1 0] None None None None faces mat.
Lemma tri_complete faces mat : complete (tri_mesh faces mat).
Proof. repeat split; intros l [=]. Qed.
Definition empty_scene : lscene := LS [] [] [] [] [] [] 0.
Lemma tri_indices_ok mat : indices_ok (tri_mesh [[0; 1; 2]]%nat mat).
Proof. intros a b c [[= <- <- <-]|[]]. cbn. lia. Qed.
(* a mesh without a material in the file: the loader logs that the default material is used, and throws *)
Theorem C150_refuted_default_material : forall conv one s stem name, room s (AF [] [tri_mesh [[0; 1; 2]]%nat 0] unit_matrix [0]%nat []) ->
  indices_ok (tri_mesh [[0; 1; 2]]%nat 0) /\ accepted unit_matrix /\ exists s', load_model conv one stem name (Some (AF [] [tri_mesh [[0; 1; 2]]%nat 0] unit_matrix [0]%nat [])) s = (s', Throws).
Proof.
  intros conv one s stem name R. split; [apply tri_indices_ok|]. split; [apply unit_accepted|].
  destruct (C150_returns conv one stem name (AF [] [tri_mesh [[0; 1; 2]]%nat 0] unit_matrix [0]%nat []) s) as [(L & _)|(_ & H)]; auto; [constructor; auto using tri_complete|].
  destruct L as (L & _). inversion L as [|? ? (_ & K) ?]; subst. cbn in K. lia.
Qed.
(* a quadrilateral face is dropped without a word *)
Theorem C150_refuted_faces : forall conv one s stem name, let f := AF ["a"%string] [tri_mesh [[0; 1; 3; 2]]%nat 0] unit_matrix [0]%nat [] in room s f ->
  exists s' k gn g, load_model conv one stem name (Some f) s = (s', Ok k) /\ nth_error (l_geoms s') (List.length (l_geoms s)) = Some (gn, g) /\ triangle_count g = 0%nat.
Proof.
  intros conv one s stem name f R. assert (C: Forall complete (f_meshes f)) by (constructor; auto using tri_complete).
  destruct (C150_returns conv one stem name f s C R) as [(_ & s' & E)|(L & _)].
  - destruct (C150_triangles conv one stem name f s s' _ C R E) as (_ & _ & _ & T). destruct (T 0%nat (tri_mesh [[0; 1; 3; 2]]%nat 0) eq_refl) as (gn & pn & g & G & _ & _ & N & _).
    rewrite Nat.add_0_r in G. exists s', (List.length (l_models s)), gn, g. auto.
  - contradict L. split; [|split; [apply unit_accepted|constructor]]. constructor; auto. split; [intros a b c []|cbn; lia].
Qed.
(* a mesh number that is not in the file is ignored at the root and fatal one node below *)
Theorem C150_refuted_missing_mesh : forall conv one s stem name, let at_root := AF ["a"%string] [tri_mesh [[0; 1; 2]]%nat 0] unit_matrix [7]%nat [] in
  let below := AF ["a"%string] [tri_mesh [[0; 1; 2]]%nat 0] unit_matrix [] [AN "n" unit_matrix [7]%nat []] in room s at_root -> room s below ->
  (exists s' k, load_model conv one stem name (Some at_root) s = (s', Ok k)) /\ (exists s', load_model conv one stem name (Some below) s = (s', Throws)).
Proof.
  intros conv one s stem name f g R R'. assert (C: Forall complete (f_meshes f)) by (constructor; auto using tri_complete). split.
  - destruct (C150_returns conv one stem name f s C R) as [(_ & s' & E)|(L & _)]; eauto. contradict L. split; [|split; [apply unit_accepted|constructor]]. constructor; auto. split; [apply tri_indices_ok|cbn; lia].
  - destruct (C150_returns conv one stem name g s C R') as [(L & _)|(_ & E)]; auto. destruct L as (_ & _ & L). inversion L as [|? ? (_ & K) ?]; subst. cbn [snd] in K. inversion K as [|? ? J ?]; subst. cbn in J. lia.
Qed.

(* a file with a coloured two-triangle mesh placed twice meets the hypotheses of C150_triangles, C150_places *)
Example C150_case : let f := AF ["a"%string] [tri_mesh [[0; 1; 2]; [1; 3; 2]]%nat 0] unit_matrix [0]%nat [AN "n" unit_matrix [0]%nat []] in
  Forall complete (f_meshes f) /\ room empty_scene f /\ loadable f /\ List.length (file_places f) = 2%nat.
Proof.
  split; [constructor; auto using tri_complete|]. split; [repeat split; reflexivity|]. split; [|reflexivity]. split; [constructor; auto; split; [|cbn; lia]; intros a b c [[= <- <- <-]|[[= <- <- <-]|[]]]; cbn; lia|].
  split; [apply unit_accepted|]. constructor; [|constructor]. split; [apply unit_accepted|]. constructor; auto.
Qed.
(* a file with a triangle that has no third vertex meets the hypotheses of C150_refuted_atomic *)
Example C150_case_bad : let f := AF ["a"%string] [tri_mesh [[0; 1; 9]]%nat 0] unit_matrix [0]%nat [] in Forall complete (f_meshes f) /\ room empty_scene f /\ ~ loadable f /\ ~ has_name (l_models empty_scene) "x".
Proof.
  split; [constructor; auto using tri_complete|]. split; [repeat split; reflexivity|]. split; [|intros []]. intros (L & _). inversion L as [|? ? (K & _) ?]; subst. specialize (K 0%nat 1%nat 9%nat (or_introl eq_refl)). cbn in K. lia.
Qed.
