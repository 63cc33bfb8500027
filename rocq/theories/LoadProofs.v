(* Lemmas about LoadModel.v *)
From Verif Require Import Common Vec3 TransformModel SurfaceModel RegistryModel RegistryProofs LoadModel LoadSpec.
Open Scope R_scope.
Open Scope list_scope.

Lemma forall2_len {A B} (P : A -> B -> Prop) l l' : Forall2 P l l' -> List.length l = List.length l'.
Proof. induction 1; cbn; auto. Qed.
Section Mesh.
Variable conv : R * R * R -> list R.
Variable one : list R.

Lemma at_nth {A} (l : list A) i d : (i < List.length l)%nat -> at_ l i = Ok (nth i l d).
Proof. intros H. unfold at_. rewrite (nth_error_nth' l d H). auto. Qed.

Definition file_vertex (m : ai_mesh) (i : nat) : vertex := Vx (file_pos m i) (file_albedo conv one m i) (file_normal m i) (file_u m i) (file_v m i).
Lemma convert_vertex_ok m i : complete m -> (i < List.length (am_verts m))%nat -> convert_vertex conv one m i (file_pos m i) = Ok (file_vertex m i).
Proof.
  intros (CN & CU & CC & CT) L. unfold convert_vertex, file_vertex, file_albedo, file_normal, file_u, file_v.
  destruct (am_normals m) as [ln|]; cbn [obind]; [rewrite (at_nth ln i vzero) by (rewrite (CN _ eq_refl); auto); cbn [obind]|];
  (destruct (am_uvs m) as [lu|]; cbn [obind]; [rewrite (at_nth lu i (0, 0)) by (rewrite (CU _ eq_refl); auto); cbn [obind]|]);
  (destruct (am_colors m) as [lc|]; cbn [obind]; [rewrite (at_nth lc i (0, 0, 0)) by (rewrite (CC _ eq_refl); auto); cbn [obind]|]); reflexivity.
Qed.
Lemma convert_vertices_ok m : complete m -> forall ps i, (forall j, (j < List.length ps)%nat -> nth j ps vzero = file_pos m (i + j)) -> (i + List.length ps <= List.length (am_verts m))%nat ->
  convert_vertices conv one m i ps = Ok (map (file_vertex m) (seq i (List.length ps))).
Proof.
  intros C. induction ps as [|p ps IH]; intros i H L; cbn [convert_vertices List.length seq map]; auto. cbn [List.length] in *.
  pose proof (H 0%nat ltac:(lia)) as H0. cbn in H0. rewrite Nat.add_0_r in H0. subst p. rewrite convert_vertex_ok by (auto; lia). cbn [obind].
  rewrite IH; [auto| |lia]. intros j J. specialize (H (S j) ltac:(lia)). cbn in H. rewrite H. f_equal. lia.
Qed.
Lemma convert_tangents_none m : am_tangents m = None -> forall ps i, convert_tangents m i ps = Ok [].
Proof. intros E. induction ps as [|p ps IH]; intros i; cbn; auto. rewrite E. auto. Qed.
Lemma convert_tangents_some m l : am_tangents m = Some l -> forall ps i, (i + List.length ps <= List.length l)%nat ->
  convert_tangents m i ps = Ok (map (file_tangent m) (seq i (List.length ps))).
Proof.
  intros E. induction ps as [|p ps IH]; intros i L; cbn [convert_tangents List.length seq map]; auto. cbn [List.length] in L. rewrite E.
  rewrite (at_nth l i (vzero, vzero)) by lia. cbn [obind]. rewrite IH by lia. cbn [obind]. unfold file_tangent at 2. rewrite E. auto.
Qed.

Lemma index_buffer_triangles faces : index_buffer faces = flat_map (fun t => [fst (fst t); snd (fst t); snd t]) (triangles faces).
Proof.
  induction faces as [|f r IH]; cbn; auto.
  destruct f as [|a [|b [|c [|d f]]]]; cbn [List.length Nat.eqb]; cbn; rewrite ?IH; auto.
Qed.
Lemma flat3_length (l : list (nat * nat * nat)) : List.length (flat_map (fun t => [fst (fst t); snd (fst t); snd t]) l) = (3 * List.length l)%nat.
Proof. induction l as [|t l IH]; auto. cbn [flat_map List.length app] in *. rewrite IH. lia. Qed.
Lemma flat3_nth (l : list (nat * nat * nat)) k a b c : nth_error l k = Some (a, b, c) ->
  let q := flat_map (fun t => [fst (fst t); snd (fst t); snd t]) l in nth_error q (k * 3 + 0) = Some a /\ nth_error q (k * 3 + 1) = Some b /\ nth_error q (k * 3 + 2) = Some c.
Proof.
  revert k. induction l as [|t l IH]; intros [|k] H; try discriminate.
  - injection H as ->. cbn. auto.
  - specialize (IH k H). cbn zeta in *. cbn [flat_map app].
    replace (S k * 3 + 0)%nat with (S (S (S (k * 3 + 0)))) by lia. replace (S k * 3 + 1)%nat with (S (S (S (k * 3 + 1)))) by lia. replace (S k * 3 + 2)%nat with (S (S (S (k * 3 + 2)))) by lia.
    cbn [nth_error]. auto.
Qed.
Lemma flat3_forall (P : nat -> Prop) (l : list (nat * nat * nat)) : Forall P (flat_map (fun t => [fst (fst t); snd (fst t); snd t]) l) <-> forall a b c, In (a, b, c) l -> P a /\ P b /\ P c.
Proof.
  rewrite Forall_forall. split.
  - intros H a b c I. repeat split; apply H, in_flat_map; exists (a, b, c); cbn; auto.
  - intros H x I. apply in_flat_map in I. destruct I as ([[a b] c] & I & J). destruct (H a b c I) as (A & B & C). cbn in J. intuition (subst; auto).
Qed.

Definition the_mesh (m : ai_mesh) : mesh := Mesh (index_buffer (am_faces m)) (map (file_vertex m) (seq 0 (List.length (am_verts m))))
  (match am_tangents m with Some _ => map (file_tangent m) (seq 0 (List.length (am_verts m))) | None => [] end).
Lemma build_mesh_cases m : complete m -> (indices_ok m /\ build_mesh conv one m = Ok (the_mesh m)) \/ (~ indices_ok m /\ build_mesh conv one m = Throws).
Proof.
  intros C. unfold build_mesh. rewrite convert_vertices_ok; auto. cbn [obind].
  assert (T: convert_tangents m 0 (am_verts m) = Ok (match am_tangents m with Some _ => map (file_tangent m) (seq 0 (List.length (am_verts m))) | None => [] end)).
  { destruct (am_tangents m) as [l|] eqn:E; [|apply convert_tangents_none; auto]. apply convert_tangents_some with l; auto. destruct C as (_ & _ & _ & C). rewrite (C _ E). auto. }
  rewrite T. cbn [obind]. unfold new_mesh. rewrite map_length, seq_length.
  assert (I: existsb (fun i => Nat.leb (List.length (am_verts m)) i) (index_buffer (am_faces m)) = false <-> indices_ok m).
  { rewrite index_buffer_triangles. unfold indices_ok. rewrite <- (flat3_forall (fun i => (i < List.length (am_verts m))%nat)), Forall_forall, <- not_true_iff_false, existsb_exists. split.
    - intros H x J. destruct (Nat.lt_ge_cases x (List.length (am_verts m))) as [|G]; auto. contradict H. exists x. split; auto. apply Nat.leb_le; auto.
    - intros H (x & J & L). apply Nat.leb_le in L. specialize (H x J). lia. }
  destruct (existsb _ _) eqn:X.
  - right. split; auto. intros K. apply I in K. discriminate.
  - left. split; [apply I; auto|].
    replace (negb _ && negb _)%bool with false; auto. destruct (am_tangents m); cbn [List.length]; [|reflexivity]. rewrite map_length, seq_length, Nat.eqb_refl, andb_false_r. auto.
Qed.
Lemma nth_error_map_seq {A} (f : nat -> A) n i : (i < n)%nat -> nth_error (map f (seq 0 n)) i = Some (f i).
Proof. intros H. rewrite nth_error_map, (nth_error_nth' _ 0%nat) by (rewrite seq_length; auto). rewrite seq_nth by auto. auto. Qed.
Lemma mix3_zero w u v : mix3 w u v vzero vzero vzero = vzero.
Proof. apply v3_eq; cbn; ring. Qed.
Lemma the_mesh_surface m t a b c u v : complete m -> indices_ok m -> nth_error (triangles (am_faces m)) t = Some (a, b, c) -> mesh_surface (the_mesh m) t u v = Ok (file_surface conv one m a b c u v).
Proof.
  intros C I N. destruct (I a b c (nth_error_In _ _ N)) as (A & B & D). destruct (flat3_nth _ _ _ _ _ N) as (X & Y & Z).
  unfold mesh_surface, the_mesh, at_. cbn [m_index m_vertex m_tangent]. rewrite index_buffer_triangles, X, Y, Z. cbn [obind].
  rewrite !nth_error_map_seq by auto. cbn [obind].
  destruct (am_tangents m) as [l|] eqn:T.
  - destruct (seq 0 (List.length (am_verts m))) as [|x q] eqn:Q; [destruct (am_verts m); cbn in *; [lia|discriminate]|].
    cbn [map]. change (file_tangent m x :: map (file_tangent m) q) with (map (file_tangent m) (x :: q)). rewrite <- Q, !nth_error_map_seq by auto. cbn [obind]. reflexivity.
  - cbn [obind fst snd]. unfold file_surface, file_tangent. rewrite T. cbn [fst snd]. rewrite mix3_zero. reflexivity.
Qed.
Lemma the_mesh_count m : triangle_count (the_mesh m) = List.length (triangles (am_faces m)).
Proof. unfold triangle_count, the_mesh. cbn [m_index]. rewrite index_buffer_triangles, flat3_length. lia. Qed.

(** Registrations *)
Lemma add_item_ok {A} ty id (l : list (string * A)) name a : small l 1 -> exists n, add_item ty id l name a = Ok (l ++ [(n, a)]).
Proof.
  intros S. unfold add_item. destruct (make_unique_fresh (map (fun p => (fst p, 0%N)) l) (if String.eqb name "" then (ty ++ "." ++ dec id)%string else name)) as (n & E & _).
  { rewrite map_length. unfold small in S. lia. }
  rewrite E. cbn. eauto.
Qed.
Lemma add_item_shape {A} ty id (l l' : list (string * A)) name a : add_item ty id l name a = Ok l' -> exists n, l' = l ++ [(n, a)].
Proof. unfold add_item. destruct (make_unique_name _ _); cbn; try discriminate. intros [= <-]. eauto. Qed.
Lemma new_materials_ok names : forall s, small (l_mats s) (List.length names) ->
  exists qs n, new_materials names s = (LS (l_models s) (l_bsdfs s) (l_mats s ++ qs) (l_geoms s) (l_prims s) (l_nodes s) n, Ok tt) /\ List.length qs = List.length names.
Proof.
  induction names as [|x names IH]; intros s S; cbn [new_materials].
  - exists [], (l_next s). rewrite app_nil_r. destruct s; auto.
  - cbn [List.length] in S. destruct (add_item_ok "Material" (l_next s) (l_mats s) x tt) as (n & E); [unfold small in *; lia|]. rewrite E. unfold store. cbn [rbind].
    destruct (IH (s_mats s (l_mats s ++ [(n, tt)]))) as (qs & n' & E' & L). { unfold small in *. cbn. rewrite app_length. cbn. lia. }
    rewrite E'. exists ((n, tt) :: qs), n'. cbn. rewrite <- app_assoc. cbn. auto.
Qed.

(** Meshes *)
Lemma process_meshes_cases nmat ms : forall s, Forall complete ms -> small (l_geoms s) (List.length ms) -> small (l_prims s) (List.length ms) ->
  exists gs qs n o, process_meshes conv one nmat ms s = (LS (l_models s) (l_bsdfs s) (l_mats s) (l_geoms s ++ gs) (l_prims s ++ qs) (l_nodes s) n, o) /\
  ((Forall (mesh_ok nmat) ms /\ o = Ok (seq (List.length (l_prims s)) (List.length ms)) /\ Forall2 (fun m g => snd g = the_mesh m) ms gs /\ List.length qs = List.length ms /\
      forall j m, nth_error ms j = Some m -> exists x, nth_error qs j = Some (x, ((List.length (l_geoms s) + j)%nat, (List.length (l_mats s) - nmat + am_material m)%nat)))
   \/ (~ Forall (mesh_ok nmat) ms /\ o = Throws)).
Proof.
  induction ms as [|m ms IH]; intros s C SG SP; cbn [process_meshes].
  - exists [], [], (l_next s), (Ok []). rewrite !app_nil_r. split; [destruct s; auto|]. left. repeat split; auto. intros [|j] m; discriminate.
  - inversion C as [|? ? Cm C']; subst. cbn [List.length] in *. unfold convert_mesh. cbn [rbind].
    destruct (build_mesh_cases m Cm) as [(I & E)|(I & E)]; rewrite E; cbn [rbind].
    2:{ exists [], [], (l_next s), Throws. rewrite !app_nil_r. split; [destruct s; auto|]. right. split; auto. intros F. inversion F as [|? ? M ?]; subst. apply I, M. }
    destruct (add_item_ok "Mesh" (l_next s) (l_geoms s) (am_name m) (the_mesh m)) as (gn & Eg); [unfold small in *; lia|]. rewrite Eg. unfold store at 1. cbn [rbind].
    destruct (Nat.ltb_spec (am_material m) nmat) as [M|M].
    2:{ exists [(gn, the_mesh m)], [], (l_next s + 1)%N, Throws. rewrite app_nil_r. split; [destruct s; auto|]. right. split; auto. intros F. inversion F as [|? ? K ?]; subst. destruct K as (_ & K). lia. }
    set (s1 := s_geoms s (l_geoms s ++ [(gn, the_mesh m)])).
    destruct (add_item_ok "Primitive" (l_next s1) (l_prims s1) (am_name m) (List.length (l_geoms s), (List.length (l_mats s1) - nmat + am_material m)%nat)) as (pn & Ep); [unfold small in *; cbn; lia|].
    rewrite Ep. unfold store. cbn [rbind].
    destruct (IH (s_prims s1 (l_prims s1 ++ [(pn, (List.length (l_geoms s), (List.length (l_mats s1) - nmat + am_material m)%nat))])) C') as (gs & qs & n & o & R & H).
    { unfold small in *. cbn. rewrite app_length. cbn. lia. } { unfold small in *. cbn. rewrite app_length. cbn. lia. }
    rewrite R. cbn [l_models l_bsdfs l_mats l_geoms l_prims l_nodes s_prims s_geoms s1] in *. rewrite <- !app_assoc. cbn [app].
    destruct H as [(F & -> & G & Q & J)|(F & ->)]; cbn [rbind].
    + exists ((gn, the_mesh m) :: gs), ((pn, (List.length (l_geoms s), (List.length (l_mats s) - nmat + am_material m)%nat)) :: qs), n, (Ok (seq (List.length (l_prims s)) (S (List.length ms)))).
      split. { f_equal. f_equal. cbn [seq]. rewrite app_length. cbn [List.length]. rewrite Nat.add_1_r. auto. }
      left. split; [constructor; auto; split; auto|]. split; auto. split; [constructor; auto|]. split; [cbn; lia|].
      intros [|j] m' N; cbn [nth_error] in *. { injection N as <-. rewrite Nat.add_0_r. eauto. }
      destruct (J j m' N) as (x & X). exists x. rewrite X. rewrite app_length. cbn [List.length]. do 3 f_equal. lia.
    + exists ((gn, the_mesh m) :: gs), ((pn, (List.length (l_geoms s), (List.length (l_mats s) - nmat + am_material m)%nat)) :: qs), n, Throws. split; auto.
      right. split; auto. intros K. inversion K; auto.
Qed.

(** Nodes *)
Lemma convert_matrix_defined m : convert_matrix m <> UB.
Proof. unfold convert_matrix, convert_transform, set_matrix. destruct (Rltb _ _); cbn; discriminate. Qed.
Definition placed (prims : list nat) (c : list mat4 * nat) (d : list transform * nat) : Prop :=
  Forall2 (fun M x => convert_matrix M = Ok x) (fst c) (fst d) /\ nth_error prims (snd c) = Some (snd d).
Lemma accepted_iff m : accepted m <-> exists t, convert_matrix m = Ok t.
Proof.
  unfold accepted, convert_matrix, convert_transform, set_matrix.
  assert (U: forall c, unit_column c = unit_of c) by (intros c; unfold unit_column, unit_of; destruct (Rltb _ _); auto; apply v3_eq; cbn -[pow]; unfold Rdiv; ring).
  rewrite !U. set (a := unit_of (k0 m)). set (b := unit_of (k1 m)). set (c := unit_of (k2 m)).
  replace (det (M3 a b c)) with (dot a (cross b c)) by (unfold det, dot, cross; cbn; ring).
  destruct (Rltb (/ 1000) (Rabs (dot a (cross b c) - 1))) eqn:E; cbn [obind].
  - apply Rltb_true in E. split; [lra|]. intros (t & [=]).
  - apply Rltb_false in E. split; eauto.
Qed.
Lemma instances_cases prims ms : (Forall (fun i => (i < List.length prims)%nat) ms /\ exists l, instances prims ms = (l, Ok tt) /\ Forall2 (fun i p => nth_error prims i = Some p) ms l) \/
  (~ Forall (fun i => (i < List.length prims)%nat) ms /\ exists l, instances prims ms = (l, Throws)).
Proof.
  induction ms as [|i ms IH]; cbn [instances]; [left; eauto|].
  destruct (nth_error prims i) as [p|] eqn:E.
  - assert (i < List.length prims)%nat by (apply nth_error_Some; congruence).
    destruct IH as [(F & l & -> & G)|(F & l & ->)]; [left; split; eauto|right; split; eauto]. intros K. inversion K; auto.
  - right. split; eauto. intros K. inversion K as [|? ? L ?]; subst. apply nth_error_Some in L. congruence.
Qed.
Lemma ai_ind (P : ai_node -> Prop) : (forall name m ms kids, Forall P kids -> P (AN name m ms kids)) -> forall n, P n.
Proof.
  intros H. fix IH 1. intros [name m ms kids]. apply H. induction kids as [|k r G]; constructor; auto.
Qed.
Definition more_nodes (s : lscene) (qs : list (string * unit)) (n : N) : lscene := LS (l_models s) (l_bsdfs s) (l_mats s) (l_geoms s) (l_prims s) (l_nodes s ++ qs) n.
Definition node_spec (prims : list nat) (x : ai_node) : Prop := forall s, small (l_nodes s) (ai_size x) ->
  exists qs n fr o, process_node prims x s = (more_nodes s qs n, fr, o) /\ (List.length qs <= ai_size x)%nat /\
  ((Forall (node_fine (List.length prims)) (nodes_of x) /\ o = Ok tt /\
      forall pre pre', Forall2 (fun M x => convert_matrix M = Ok x) pre pre' -> Forall2 (placed prims) (node_places pre x) (frame_places pre' fr))
   \/ (~ Forall (node_fine (List.length prims)) (nodes_of x) /\ o = Throws)).
Lemma more_nodes_nil s : more_nodes s [] (l_next s) = s.
Proof. unfold more_nodes. rewrite app_nil_r. destruct s; auto. Qed.
Lemma kids_cases prims kids : Forall (node_spec prims) kids -> forall s, small (l_nodes s) (list_sum (map ai_size kids)) ->
  exists qs n fs o, kids_loop (process_node prims) kids s = (more_nodes s qs n, fs, o) /\ (List.length qs <= list_sum (map ai_size kids))%nat /\
  ((Forall (node_fine (List.length prims)) (flat_map nodes_of kids) /\ o = Ok tt /\
      forall pre pre', Forall2 (fun M x => convert_matrix M = Ok x) pre pre' -> Forall2 (placed prims) (flat_map (node_places pre) kids) (flat_map (frame_places pre') fs))
   \/ (~ Forall (node_fine (List.length prims)) (flat_map nodes_of kids) /\ o = Throws)).
Proof.
  induction 1 as [|k r K _ IH]; intros s S; cbn [kids_loop].
  - exists [], (l_next s), [], (Ok tt). rewrite more_nodes_nil. split; auto. split; auto. left. repeat split; cbn; auto.
  - cbn [map list_sum fold_right] in S. fold (list_sum (map ai_size r)) in S.
    destruct (K s) as (qs & n & fr & o & E & L & H); [unfold small in *; lia|]. rewrite E.
    assert (LS': list_sum (map ai_size (k :: r)) = (ai_size k + list_sum (map ai_size r))%nat) by reflexivity.
    destruct H as [(F & -> & G)|(F & ->)].
    + destruct (IH (more_nodes s qs n)) as (qs2 & n2 & fs & o2 & E2 & L2 & H2). { unfold small in *. cbn. rewrite app_length. lia. }
      cbn [kids_loop] in E2. rewrite E2. exists (qs ++ qs2), n2, (fr :: fs), o2. split. { unfold more_nodes. cbn. rewrite app_assoc. auto. }
      split; [rewrite app_length, LS'; lia|]. cbn [flat_map]. rewrite Forall_app.
      destruct H2 as [(F2 & -> & G2)|(F2 & ->)]; [left|right; tauto]. repeat split; auto. intros pre pre' PP. apply Forall2_app; auto.
    + exists qs, n, [fr], Throws. split; auto. split; [rewrite LS'; lia|]. right. cbn [flat_map]. rewrite Forall_app. tauto.
Qed.
Lemma node_cases prims x : node_spec prims x.
Proof.
  induction x as [name m ms kids IH] using ai_ind. intros s S. cbn [process_node ai_size nodes_of] in *.
  destruct (convert_matrix m) as [x| |] eqn:M; [| |destruct (convert_matrix_defined m M)].
  2:{ exists [], (l_next s), (Frame rest [] []), Throws. rewrite more_nodes_nil. split; auto. split; [cbn; lia|]. right. split; auto. intros F. inversion F as [|? ? K ?]; subst. destruct K as (K & _). apply accepted_iff in K. destruct K as (t & K). cbn in K. congruence. }
  destruct (add_item_ok "FrameNode" (l_next s) (l_nodes s) name tt) as (nn & E); [unfold small in *; lia|]. rewrite E. unfold store.
  destruct (instances_cases prims ms) as [(F & l & -> & G)|(F & l & ->)].
  2:{ exists [(nn, tt)], (l_next s + 1)%N, (Frame x l []), Throws. split; auto. split; [cbn; lia|]. right. split; auto. intros K. inversion K as [|? ? Z ?]; subst. destruct Z as (_ & Z). auto. }
  destruct (kids_cases prims kids IH (s_nodes s (l_nodes s ++ [(nn, tt)]))) as (qs & n & fs & o & E2 & L & H). { unfold small in *. cbn. rewrite app_length. cbn. lia. }
  rewrite E2. exists ((nn, tt) :: qs), n, (Frame x l fs), o. split. { unfold more_nodes. cbn. rewrite <- app_assoc. auto. }
  split; [cbn; lia|]. destruct H as [(F2 & -> & G2)|(F2 & ->)].
  - left. split; [constructor; auto; split; cbn; auto; apply accepted_iff; eauto|]. split; auto. intros pre pre' PP. cbn [node_places frame_places].
    assert (PP': Forall2 (fun M x => convert_matrix M = Ok x) (pre ++ [m]) (pre' ++ [x])) by (apply Forall2_app; auto).
    apply Forall2_app; [|apply G2; auto]. clear -G PP'. induction G; cbn; constructor; auto. split; auto.
  - right. split; auto. intros K. inversion K; auto.
Qed.
Lemma root_instances_spec prims ms : Forall2 (fun i p => nth_error prims i = Some p) (filter (fun i => Nat.ltb i (List.length prims)) ms) (root_instances prims ms).
Proof.
  induction ms as [|i ms IH]; cbn [filter root_instances]; auto.
  destruct (nth_error prims i) as [p|] eqn:E; destruct (Nat.ltb_spec i (List.length prims)) as [L|L]; auto.
  - assert (i < List.length prims)%nat by (apply nth_error_Some; congruence). lia.
  - apply nth_error_Some in L. congruence.
Qed.

(** The whole load *)
Lemma put_root_last s n f f' qs k : l_models s = qs ++ [(n, f)] -> k = List.length qs ->
  put_root k f' s = LS (qs ++ [(n, f')]) (l_bsdfs s) (l_mats s) (l_geoms s) (l_prims s) (l_nodes s) (l_next s).
Proof.
  intros E ->. unfold put_root. rewrite E. rewrite nth_error_app2, Nat.sub_diag by auto. cbn [nth_error]. f_equal.
  clear E. induction qs as [|q qs IH]; cbn; congruence.
Qed.
Lemma load_cases stem name f s : Forall complete (f_meshes f) -> room s f ->
  exists nm fr bs mqs gs qs ns n o, load_model conv one stem name (Some f) s =
    (LS (l_models s ++ [(nm, fr)]) (l_bsdfs s ++ bs) (l_mats s ++ mqs) (l_geoms s ++ gs) (l_prims s ++ qs) (l_nodes s ++ ns) n, o) /\
  add_item "Model" (l_next s) (l_models s) (wanted stem name) (Frame rest [] []) = Ok (l_models s ++ [(nm, Frame rest [] [])]) /\ List.length mqs = List.length (f_materials f) /\
  ((loadable f /\ o = Ok (List.length (l_models s)) /\ Forall2 (fun m g => snd g = the_mesh m) (f_meshes f) gs /\ List.length qs = List.length (f_meshes f) /\
      (forall j m, nth_error (f_meshes f) j = Some m -> exists x, nth_error qs j = Some (x, ((List.length (l_geoms s) + j)%nat, (List.length (l_mats s) + am_material m)%nat))) /\
      Forall2 (placed (seq (List.length (l_prims s)) (List.length (f_meshes f)))) (file_places f) (frame_places [] fr))
   \/ (~ loadable f /\ o = Throws)).
Proof.
  intros C (S1 & S2 & S3 & S4 & S5 & S6). unfold load_model. fold (wanted stem name).
  destruct (add_item_ok "Model" (l_next s) (l_models s) (wanted stem name) (Frame rest [] [])) as (nm & E1); auto. rewrite E1. unfold store at 1. cbn [rbind].
  unfold process_materials. destruct (add_item_ok "CookTorranceBSDF" (l_next (s_models s (l_models s ++ [(nm, Frame rest [] [])]))) (l_bsdfs (s_models s (l_models s ++ [(nm, Frame rest [] [])]))) "" tt) as (bn & E2); auto.
  rewrite E2. unfold store at 1. cbn [rbind].
  set (sb := s_bsdfs _ _). destruct (new_materials_ok (f_materials f) sb) as (mqs & n1 & E3 & LM); auto. rewrite E3. cbn [rbind]. unfold sb. cbn [l_models l_bsdfs l_mats l_geoms l_prims l_nodes s_models s_bsdfs].
  set (s2 := LS _ _ _ _ _ _ _). destruct (process_meshes_cases (List.length (f_materials f)) (f_meshes f) s2 C) as (gs & qs & n2 & o & E4 & H); auto.
  rewrite E4. unfold s2 in *. cbn [l_models l_bsdfs l_mats l_geoms l_prims l_nodes] in *.
  destruct H as [(F & -> & G & Q & J)|(F & ->)]; cbn [rbind].
  2:{ exists nm, (Frame rest [] []), [(bn, tt)], mqs, gs, qs, [], n2, Throws. rewrite app_nil_r. split; auto. split; auto. split; auto. right. split; auto. intros (A & _). auto. }
  destruct (convert_matrix (f_matrix f)) as [x| |] eqn:M; cbn [rbind]; [| |destruct (convert_matrix_defined _ M)].
  2:{ exists nm, (Frame rest [] []), [(bn, tt)], mqs, gs, qs, [], n2, Throws. rewrite app_nil_r. split; auto. split; auto. split; auto. right. split; auto. intros (_ & A & _). apply accepted_iff in A. destruct A as (t & A). congruence. }
  set (s3 := LS _ _ _ _ _ _ _). set (prims := seq (List.length (l_prims s)) (List.length (f_meshes f))) in *.
  destruct (kids_cases prims (f_kids f)) with (s := s3) as (ns & n3 & fs & o & E5 & L5 & H); [apply Forall_forall; intros; apply node_cases|auto|].
  unfold process_kids. rewrite E5. assert (PL: List.length prims = List.length (f_meshes f)) by apply seq_length.
  destruct H as [(F5 & -> & G5)|(F5 & ->)].
  - erewrite put_root_last; [|reflexivity|reflexivity]. unfold s3, more_nodes. cbn [l_models l_bsdfs l_mats l_geoms l_prims l_nodes l_next].
    exists nm, (Frame x (root_instances prims (f_root_meshes f)) fs), [(bn, tt)], mqs, gs, qs, ns, n3, (Ok (List.length (l_models s))). split; auto. split; auto. split; auto. left.
    split; [split; auto; split; [apply accepted_iff; eauto|rewrite <- PL; auto]|]. split; auto. split; auto. split; auto. split.
    + intros j m N. destruct (J j m N) as (y & Y). exists y. rewrite Y. do 3 f_equal. rewrite app_length, LM. lia.
    + unfold file_places. cbn [frame_places app]. rewrite <- PL. apply Forall2_app.
      * pose proof (root_instances_spec prims (f_root_meshes f)) as R. clear -R M. induction R; cbn; constructor; auto. split; cbn; auto.
      * apply (G5 [f_matrix f] [x]). auto.
  - erewrite put_root_last; [|reflexivity|reflexivity]. unfold s3, more_nodes. cbn [l_models l_bsdfs l_mats l_geoms l_prims l_nodes l_next].
    exists nm, (Frame x [] fs), [(bn, tt)], mqs, gs, qs, ns, n3, Throws. split; auto. split; auto. split; auto. right. split; auto. intros (_ & _ & A). rewrite PL in F5. auto.
Qed.
End Mesh.
