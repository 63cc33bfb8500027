(* C124: every slot of a loaded material shows its own file, read for its own role. *)
From Verif Require Import Common Vec3 ImageModel SrgbModel SurfaceModel TextureModel.
Open Scope R_scope.

(** Specification *)
(* the picture a path stands for, values as stored (8-bit texels as fractions of 255); None if there is no readable picture *)
Definition stored (s : source) : option (img vec3) :=
  match s with
  | Compressed true (Some b) | OnDisk (Some b) => Some (b_image b)
  | RawTexels w h t => Some (Img w h (map (fun '(r, g, b, _) => V3 (IZR r / 255) (IZR g / 255) (IZR b / 255)) t))
  | _ => None
  end.
(* its transparency, if it has any *)
Definition stored_alpha (s : source) : option (img R) :=
  match s with
  | Compressed true (Some b) | OnDisk (Some b) => b_alpha b
  | RawTexels w h t => if (0 <? w)%Z then Some (Img w h (map (fun '(_, _, _, a) => IZR a / 255) t)) else None
  | _ => None
  end.
(* how much light a stored colour value means: what the file says, sRGB for raw texels; None: the file does not say *)
Definition light (s : source) : option (R -> R) :=
  match s with
  | Compressed true (Some b) | OnDisk (Some b) =>
      match b_hint b with HLinear => Some (fun x => x) | HsRGB => Some srgb_to_linear | HGamma => Some (fun x => gamma_to_linear x (b_gamma b)) | HUnknown => None end
  | RawTexels _ _ _ => Some srgb_to_linear
  | _ => None
  end.
(* the texture image a slot ends up with *)
Definition shown {A} (textures : list (img A)) (handle : option nat) : option (img A) := match handle with Some h => nth_error textures h | None => None end.
(* the light, through the user's conversion *)
Definition in_light {Sp} (conv : vec3 -> Sp) (s : source) (im : img Sp) : Prop :=
  exists pic f, stored s = Some pic /\ light s = Some f /\ im = map_img (fun p => conv (V3 (f (vx p)) (f (vy p)) (f (vz p)))) pic.
(* a colour slot shows the light of its file, or nothing if there is no file *)
Definition colour_right {Sp} (conv : vec3 -> Sp) (files : string -> source) (path : option string) (slot : option (img Sp)) : Prop :=
  match path with
  | None => slot = None
  | Some p => match stored (files p) with None => slot = None | Some _ => exists im, slot = Some im /\ (light (files p) <> None -> in_light conv (files p) im) end
  end.
Definition data_right {A} (f : vec3 -> A) (files : string -> source) (path : option string) (slot : option (img A)) : Prop :=
  slot = match path with None => None | Some p => option_map (map_img f) (stored (files p)) end.
(* the whole claim for one material *)
Record material_right {Sp} (conv : vec3 -> Sp) (files : string -> source) (c : ctx (Sp := Sp)) (m : ai_material) (o : mat_images) : Prop := {
  r_albedo : colour_right conv files (a_base m) (shown (c_sp c) (o_albedo o));
  r_alpha : shown (c_mono c) (o_alpha o) = match a_base m with None => None | Some p => stored_alpha (files p) end;
  r_rough : data_right vy files (a_rough m) (shown (c_mono c) (o_rough o));
  r_metal : data_right vz files (a_metal m) (shown (c_mono c) (o_metal o));
  r_normal : data_right decode_normal files (a_normal m) (shown (c_v3 c) (o_normal o));
  r_emissive : colour_right conv files (a_emissive m) (shown (c_sp c) (o_emissive o)) }.
Definition claim : Prop := forall (Sp : Type) (conv : vec3 -> Sp) files ms c os i m o,
  load_materials conv files ms = (c, os) -> nth_error ms i = Some m -> nth_error os i = Some o -> material_right conv files c m o.

(** Proofs *)
Lemma map_img_map {A B C} (f : B -> C) (g : A -> B) im : map_img f (map_img g im) = map_img (fun x => f (g x)) im.
Proof. unfold map_img; cbn. rewrite map_map. reflexivity. Qed.
Lemma map_img_ext {A B} (f g : A -> B) im : (forall x, f x = g x) -> map_img f im = map_img g im.
Proof. intros. unfold map_img. f_equal. apply map_ext. auto. Qed.
Lemma texels_stored t : map texel_rgb t = map (fun '(r, g, b, _) => V3 (IZR r / 255) (IZR g / 255) (IZR b / 255)) t.
Proof. apply map_ext. intros (((r & g) & b) & a). cbn. apply v3_eq; cbn; field. Qed.
Lemma texels_alpha t : map texel_alpha t = map (fun '(_, _, _, a) => IZR a / 255) t.
Proof. apply map_ext. intros (((r & g) & b) & a). cbn. field. Qed.
Lemma mono_key_eqb_spec a b : reflect (a = b) (mono_key_eqb a b).
Proof.
  destruct a, b; cbn; try (constructor; congruence); [destruct (String.eqb_spec path path0)|destruct (Nat.eqb_spec id id0)|destruct (Nat.eqb_spec id id0)]; constructor; congruence.
Qed.
Lemma emplace_new {K} eqb (SP : forall a b : K, reflect (a = b) (eqb a b)) m k v q : m k = None -> emplace eqb m k v q = if eqb k q then Some v else m q.
Proof. intros N. unfold emplace. rewrite N. reflexivity. Qed.

Section Inv.
Context {Sp : Type} (conv : vec3 -> Sp) (files : string -> source) (cls ncls : string -> bool).
Notation dec p := (decode_spectral conv (files p) (cls p) (cls p)).
Notation decv p := (decode_vec3 (files p) (ncls p)).
Definition packed_of (c : ctx (Sp := Sp)) h := nth h (c_v3 c) (Img 0 0 []).
Record Inv (c : ctx (Sp := Sp)) : Prop := {
  i_sp : forall p h, k_sp c p = Some h -> exists im al, dec p = Some (im, al) /\ nth_error (c_sp c) h = Some im /\
           match al with Some a => exists ha, k_mono c (KAlpha p) = Some ha /\ nth_error (c_mono c) ha = Some a | None => k_mono c (KAlpha p) = None end;
  i_al : forall p, k_sp c p = None -> k_mono c (KAlpha p) = None;
  i_v3 : forall p h, k_v3 c p = Some h -> exists im, decv p = Some im /\ nth_error (c_v3 c) h = Some im;
  i_r : forall h r, k_mono c (KRough h) = Some r -> (h < List.length (c_v3 c))%nat /\ nth_error (c_mono c) r = Some (map_img (comp vy) (packed_of c h));
  i_m : forall h r, k_mono c (KMetal h) = Some r -> (h < List.length (c_v3 c))%nat /\ nth_error (c_mono c) r = Some (map_img (comp vz) (packed_of c h));
  i_rm : forall h, k_mono c (KRough h) = None <-> k_mono c (KMetal h) = None;
  i_inj : forall p q h, k_sp c p = Some h -> k_sp c q = Some h -> p = q;
  i_injv : forall p q h, k_v3 c p = Some h -> k_v3 c q = Some h -> p = q }.
Record Ext (c c' : ctx (Sp := Sp)) : Prop := {
  e_sp : exists l, c_sp c' = c_sp c ++ l; e_mono : exists l, c_mono c' = c_mono c ++ l; e_v3 : exists l, c_v3 c' = c_v3 c ++ l;
  e_ksp : forall p h, k_sp c p = Some h -> k_sp c' p = Some h; e_kv3 : forall p h, k_v3 c p = Some h -> k_v3 c' p = Some h }.
Lemma nth_app {A} (l l' : list A) n x : nth_error l n = Some x -> nth_error (l ++ l') n = Some x.
Proof. intros H. rewrite nth_error_app1; auto. apply nth_error_Some. congruence. Qed.
Lemma Ext_refl c : Ext c c.
Proof. constructor; auto; exists []; rewrite app_nil_r; reflexivity. Qed.
Lemma Ext_trans a b c : Ext a b -> Ext b c -> Ext a c.
Proof.
  intros [(l1 & A1) (l2 & A2) (l3 & A3) A4 A5] [(m1 & B1) (m2 & B2) (m3 & B3) B4 B5].
  constructor; eauto; [exists (l1 ++ m1)|exists (l2 ++ m2)|exists (l3 ++ m3)]; rewrite app_assoc; congruence.
Qed.
Lemma look_sp c c' h im : Ext c c' -> nth_error (c_sp c) h = Some im -> nth_error (c_sp c') h = Some im.
Proof. intros [(l & E) _ _ _ _] H. rewrite E. apply nth_app; auto. Qed.
Lemma look_mono c c' h im : Ext c c' -> nth_error (c_mono c) h = Some im -> nth_error (c_mono c') h = Some im.
Proof. intros [_ (l & E) _ _ _] H. rewrite E. apply nth_app; auto. Qed.
Lemma look_v3 c c' h im : Ext c c' -> nth_error (c_v3 c) h = Some im -> nth_error (c_v3 c') h = Some im.
Proof. intros [_ _ (l & E) _ _] H. rewrite E. apply nth_app; auto. Qed.
(* what the handles of a slot mean in c *)
Definition Rsp (c : ctx (Sp := Sp)) (path : option string) (h a : option nat) : Prop :=
  match path with
  | None => h = None /\ a = None
  | Some p => match dec p with
              | None => h = None /\ a = None
              | Some (im, al) => exists x, h = Some x /\ k_sp c p = Some x /\ nth_error (c_sp c) x = Some im /\
                  match al with None => a = None | Some i => exists y, a = Some y /\ nth_error (c_mono c) y = Some i end
              end
  end.
Definition Rv3 (c : ctx (Sp := Sp)) (path : option string) (h : option nat) : Prop :=
  match path with
  | None => h = None
  | Some p => match decv p with None => h = None | Some im => exists x, h = Some x /\ k_v3 c p = Some x /\ nth_error (c_v3 c) x = Some im end
  end.
Lemma Rsp_ext c c' p h a : Ext c c' -> Rsp c p h a -> Rsp c' p h a.
Proof.
  intros E. unfold Rsp. destruct p as [p|]; auto. destruct (dec p) as [[im al]|]; auto. intros (x & -> & K & L & M). exists x. split; auto. split; [eapply e_ksp; eauto|]. split; [eapply look_sp; eauto|].
  destruct al; auto. destruct M as (y & -> & M). exists y. split; auto. eapply look_mono; eauto.
Qed.
Lemma Rv3_ext c c' p h : Ext c c' -> Rv3 c p h -> Rv3 c' p h.
Proof. intros E. unfold Rv3. destruct p as [p|]; auto. destruct (decv p); auto. intros (x & -> & K & L). exists x. split; auto. split; [eapply e_kv3; eauto|eapply look_v3; eauto]. Qed.

Lemma load_spectral_ok path b c c' h a : Inv c -> (forall p, path = Some p -> cls p = b) -> load_spectral conv files path b b c = (c', (h, a)) -> Inv c' /\ Ext c c' /\ Rsp c' path h a.
Proof.
  intros I CL. unfold load_spectral, Rsp. destruct path as [p|]; [|intros [= <- <- <-]; split; auto; split; [apply Ext_refl|auto]].
  specialize (CL p eq_refl). subst b. destruct (k_sp c p) as [x|] eqn:K.
  - intros [= <- <- <-]. split; auto. split; [apply Ext_refl|]. destruct (i_sp c I p x K) as (im & al & D & L & M). rewrite D. exists x. split; auto. split; auto. split; auto.
    destruct al as [al|]; [|rewrite M; destruct (cls p); auto]. destruct M as (ha & M & N). destruct (cls p) eqn:CP; [|exfalso; unfold decode_spectral in D; destruct (files p) as [|[] [|]| |[|]]; discriminate].
    exists ha. auto.
  - destruct (dec p) as [[im al]|] eqn:D; [|intros [= <- <- <-]; split; auto; split; [apply Ext_refl|auto]].
    set (x := List.length (c_sp c)). assert (NX : forall q, k_sp c q <> Some x). { intros q Q. destruct (i_sp c I q x Q) as (i1 & _ & _ & L & _). assert (H : nth_error (c_sp c) x <> None) by congruence. apply nth_error_Some in H. unfold x in H. lia. }
    assert (NA : k_mono c (KAlpha p) = None) by (apply (i_al c I); auto).
    assert (LX : nth_error (c_sp c ++ [im]) x = Some im) by (rewrite nth_error_app2, Nat.sub_diag by (unfold x; lia); reflexivity).
    destruct al as [al|]; intros [= <- <- <-].
    + set (y := List.length (c_mono c)). assert (LY : nth_error (c_mono c ++ [al]) y = Some al) by (rewrite nth_error_app2, Nat.sub_diag by (unfold y; lia); reflexivity).
      split; [|split].
      * constructor; cbn [k_sp k_mono k_v3 c_sp c_mono c_v3]; intros q.
        -- intros g. rewrite emplace_new by (auto using String.eqb_spec). destruct (String.eqb_spec p q) as [<-|NE].
           ++ intros [= <-]. exists im, (Some al). split; auto. split; auto. exists y. split; auto. rewrite emplace_new by (auto using mono_key_eqb_spec). cbn. rewrite String.eqb_refl. auto.
           ++ intros Q. destruct (i_sp c I q g Q) as (i1 & a1 & D1 & L1 & M1). exists i1, a1. split; auto. split; [apply nth_app; auto|]. rewrite emplace_new by (auto using mono_key_eqb_spec). cbn. destruct (String.eqb_spec p q); [contradiction|].
              destruct a1; auto. destruct M1 as (ha & M1 & M2). exists ha. split; auto. apply nth_app; auto.
        -- rewrite !emplace_new by (auto using String.eqb_spec, mono_key_eqb_spec). cbn. destruct (String.eqb_spec p q); [discriminate|]. apply (i_al c I).
        -- apply (i_v3 c I).
        -- intros r. rewrite emplace_new by (auto using mono_key_eqb_spec). cbn. intros Q. destruct (i_r c I q r Q). split; auto. apply nth_app; auto.
        -- intros r. rewrite emplace_new by (auto using mono_key_eqb_spec). cbn. intros Q. destruct (i_m c I q r Q). split; auto. apply nth_app; auto.
        -- rewrite !emplace_new by (auto using mono_key_eqb_spec). cbn. apply (i_rm c I).
        -- intros q' g. rewrite !emplace_new by (auto using String.eqb_spec). destruct (String.eqb_spec p q), (String.eqb_spec p q'); [congruence|intros [= <-] Q; exfalso; eapply NX; eauto|intros Q [= <-]; exfalso; eapply NX; eauto|apply (i_inj c I)].
        -- apply (i_injv c I).
      * constructor; cbn [k_sp k_mono k_v3 c_sp c_mono c_v3]; auto; try (eexists; reflexivity); try (exists []; rewrite app_nil_r; auto; fail). intros q g Q. rewrite emplace_new by (auto using String.eqb_spec). destruct (String.eqb_spec p q); [congruence|auto].
      * exists x. split; auto. cbn [k_sp k_mono k_v3 c_sp c_mono c_v3]. rewrite emplace_new by (auto using String.eqb_spec). rewrite String.eqb_refl. split; auto. split; auto. exists y. auto.
    + split; [|split].
      * constructor; cbn [k_sp k_mono k_v3 c_sp c_mono c_v3]; intros q.
        -- intros g. rewrite emplace_new by (auto using String.eqb_spec). destruct (String.eqb_spec p q) as [<-|NE].
           ++ intros [= <-]. exists im, None. auto.
           ++ intros Q. destruct (i_sp c I q g Q) as (i1 & a1 & D1 & L1 & M1). exists i1, a1. split; auto. split; [apply nth_app; auto|auto].
        -- rewrite !emplace_new by (auto using String.eqb_spec). destruct (String.eqb_spec p q); [discriminate|]. apply (i_al c I).
        -- apply (i_v3 c I).
        -- apply (i_r c I).
        -- apply (i_m c I).
        -- apply (i_rm c I).
        -- intros q' g. rewrite !emplace_new by (auto using String.eqb_spec). destruct (String.eqb_spec p q), (String.eqb_spec p q'); [congruence|intros [= <-] Q; exfalso; eapply NX; eauto|intros Q [= <-]; exfalso; eapply NX; eauto|apply (i_inj c I)].
        -- apply (i_injv c I).
      * constructor; cbn [k_sp k_mono k_v3 c_sp c_mono c_v3]; auto; try (eexists; reflexivity); try (exists []; rewrite app_nil_r; auto; fail). intros q g Q. rewrite emplace_new by (auto using String.eqb_spec). destruct (String.eqb_spec p q); [congruence|auto].
      * exists x. split; auto. cbn [k_sp k_mono k_v3 c_sp c_mono c_v3]. rewrite emplace_new by (auto using String.eqb_spec). rewrite String.eqb_refl. auto.
Qed.
Lemma load_vec3_ok path b c c' h : Inv c -> (forall p, path = Some p -> ncls p = b) -> load_vec3 files path b c = (c', h) -> Inv c' /\ Ext c c' /\ Rv3 c' path h.
Proof.
  intros I CL. unfold load_vec3, Rv3. destruct path as [p|]; [|intros [= <- <-]; split; auto; split; [apply Ext_refl|auto]].
  specialize (CL p eq_refl). subst b. destruct (k_v3 c p) as [x|] eqn:K.
  - intros [= <- <-]. split; auto. split; [apply Ext_refl|]. destruct (i_v3 c I p x K) as (im & D & L). rewrite D. exists x. auto.
  - destruct (decv p) as [im|] eqn:D; [|intros [= <- <-]; split; auto; split; [apply Ext_refl|auto]].
    set (x := List.length (c_v3 c)). assert (NX : forall q, k_v3 c q <> Some x). { intros q Q. destruct (i_v3 c I q x Q) as (i1 & _ & L). assert (H : nth_error (c_v3 c) x <> None) by congruence. apply nth_error_Some in H. unfold x in H. lia. }
    assert (LX : nth_error (c_v3 c ++ [im]) x = Some im) by (rewrite nth_error_app2, Nat.sub_diag by (unfold x; lia); reflexivity).
    assert (PO : forall g, (g < List.length (c_v3 c))%nat -> packed_of c g = nth g (c_v3 c ++ [im]) (Img 0 0 [])) by (intros g G; unfold packed_of; rewrite app_nth1; auto).
    intros [= <- <-]. split; [|split].
    + constructor; unfold packed_of; cbn [k_sp k_mono k_v3 c_sp c_mono c_v3]; intros q.
      * apply (i_sp c I).
      * apply (i_al c I).
      * intros g. rewrite emplace_new by (auto using String.eqb_spec). destruct (String.eqb_spec p q) as [<-|NE]; [intros [= <-]; exists im; auto|]. intros Q. destruct (i_v3 c I q g Q) as (i1 & D1 & L1). exists i1. split; auto. apply nth_app; auto.
      * intros r Q. destruct (i_r c I q r Q) as (A & B). rewrite app_length. split; [lia|]. rewrite <- PO; auto.
      * intros r Q. destruct (i_m c I q r Q) as (A & B). rewrite app_length. split; [lia|]. rewrite <- PO; auto.
      * apply (i_rm c I).
      * apply (i_inj c I).
      * intros q' g. rewrite !emplace_new by (auto using String.eqb_spec). destruct (String.eqb_spec p q), (String.eqb_spec p q'); [congruence|intros [= <-] Q; exfalso; eapply NX; eauto|intros Q [= <-]; exfalso; eapply NX; eauto|apply (i_injv c I)].
    + constructor; cbn [k_sp k_mono k_v3 c_sp c_mono c_v3]; auto; try (eexists; reflexivity); try (exists []; rewrite app_nil_r; auto; fail). intros q g Q. rewrite emplace_new by (auto using String.eqb_spec). destruct (String.eqb_spec p q); [congruence|auto].
    + exists x. split; auto. cbn [k_sp k_mono k_v3 c_sp c_mono c_v3]. rewrite emplace_new by (auto using String.eqb_spec). rewrite String.eqb_refl. auto.
Qed.
Lemma split_ok g im c c' hr hm : Inv c -> nth_error (c_v3 c) g = Some im -> split_packed g c = (c', (hr, hm)) ->
  Inv c' /\ Ext c c' /\ (exists x, hr = Some x /\ nth_error (c_mono c') x = Some (map_img (comp vy) im)) /\ (exists x, hm = Some x /\ nth_error (c_mono c') x = Some (map_img (comp vz) im)).
Proof.
  intros I G. assert (P : packed_of c g = im) by (unfold packed_of; apply nth_error_nth; auto). assert (GL : (g < List.length (c_v3 c))%nat) by (apply nth_error_Some; congruence). unfold split_packed.
  destruct (k_mono c (KRough g)) as [r|] eqn:KR; [destruct (k_mono c (KMetal g)) as [m|] eqn:KM; [|apply (i_rm c I) in KM; congruence]|].
  - intros [= <- <- <-]. split; auto. split; [apply Ext_refl|]. split; [exists r; split; auto; rewrite <- P; apply (i_r c I); auto|exists m; split; auto; rewrite <- P; apply (i_m c I); auto].
  - assert (KM : k_mono c (KMetal g) = None) by (apply (i_rm c I); auto). fold (packed_of c g). rewrite P. intros [= <- <- <-]. set (x := List.length (c_mono c)).
    assert (LR : nth_error (c_mono c ++ [map_img (comp vy) im; map_img (comp vz) im]) x = Some (map_img (comp vy) im)) by (rewrite nth_error_app2, Nat.sub_diag by (unfold x; lia); reflexivity).
    assert (LM : nth_error (c_mono c ++ [map_img (comp vy) im; map_img (comp vz) im]) (S x) = Some (map_img (comp vz) im)) by (rewrite nth_error_app2 by (unfold x; lia); replace (S x - List.length (c_mono c))%nat with 1%nat by (unfold x; lia); reflexivity).
    assert (EM : forall q, emplace mono_key_eqb (emplace mono_key_eqb (k_mono c) (KRough g) x) (KMetal g) (S x) q = if mono_key_eqb (KMetal g) q then Some (S x) else if mono_key_eqb (KRough g) q then Some x else k_mono c q).
    { intros q. rewrite (emplace_new mono_key_eqb mono_key_eqb_spec _ (KMetal g)) by (rewrite emplace_new by (auto using mono_key_eqb_spec); cbn; auto). rewrite emplace_new by (auto using mono_key_eqb_spec). reflexivity. }
    split; [|split; [|split]].
    + constructor; unfold packed_of; cbn [k_sp k_mono k_v3 c_sp c_mono c_v3 app]; intros q.
      * intros h Q. destruct (i_sp c I q h Q) as (i1 & a1 & D1 & L1 & M1). exists i1, a1. split; auto. split; auto. rewrite EM. cbn. destruct a1; auto. destruct M1 as (ha & M1 & M2). exists ha. split; auto. apply nth_app; auto.
      * rewrite EM. cbn. apply (i_al c I).
      * apply (i_v3 c I).
      * intros r. rewrite EM. cbn. destruct (Nat.eqb_spec g q) as [<-|NE]; [intros [= <-]; split; auto; rewrite LR; rewrite <- P; reflexivity|]. intros Q. destruct (i_r c I q r Q). split; auto. apply nth_app; auto.
      * intros r. rewrite EM. cbn. destruct (Nat.eqb_spec g q) as [<-|NE]; [intros [= <-]; split; auto; rewrite LM; rewrite <- P; reflexivity|]. intros Q. destruct (i_m c I q r Q). split; auto. apply nth_app; auto.
      * rewrite !EM. cbn. destruct (Nat.eqb_spec g q); [split; discriminate|]. apply (i_rm c I).
      * apply (i_inj c I).
      * apply (i_injv c I).
    + constructor; cbn [k_sp k_mono k_v3 c_sp c_mono c_v3 app]; auto; try (eexists; reflexivity); exists []; rewrite app_nil_r; auto.
    + exists x. auto.
    + exists (S x). auto.
Qed.
Definition Rmat (c : ctx (Sp := Sp)) (m : ai_material) (o : mat_images) : Prop :=
  Rsp c (a_base m) (o_albedo o) (o_alpha o) /\
  match packed_path m with
  | None => o_rough o = None /\ o_metal o = None
  | Some p => match decv p with
              | None => o_rough o = None /\ o_metal o = None
              | Some im => (exists x, o_rough o = Some x /\ nth_error (c_mono c) x = Some (map_img (comp vy) im)) /\ (exists x, o_metal o = Some x /\ nth_error (c_mono c) x = Some (map_img (comp vz) im))
              end
  end /\ Rv3 c (a_normal m) (o_normal o) /\ Rsp c (a_emissive m) (o_emissive o) None.
Lemma Rmat_ext c c' m o : Ext c c' -> Rmat c m o -> Rmat c' m o.
Proof.
  intros E (A & B & C & D). repeat split; eauto using Rsp_ext, Rv3_ext. destruct (packed_path m) as [p|]; auto. destruct (decv p); auto. destruct B as ((x & X1 & X2) & (y & Y1 & Y2)).
  split; [exists x|exists y]; split; eauto using look_mono.
Qed.
Definition roles (m : ai_material) : Prop := (forall p, a_base m = Some p -> cls p = true) /\ (forall p, a_emissive m = Some p -> cls p = false) /\
  (forall p, packed_path m = Some p -> ncls p = false) /\ (forall p, a_normal m = Some p -> ncls p = true).
Lemma process_material_ok m c c' o : Inv c -> roles m -> process_material conv files m c = (c', o) -> Inv c' /\ Ext c c' /\ Rmat c' m o.
Proof.
  intros I (R1 & R2 & R3 & R4). unfold process_material.
  destruct (load_spectral conv files (a_base m) true true c) as (c1 & (albedo & alpha)) eqn:L1. destruct (load_spectral_ok _ _ _ _ _ _ I R1 L1) as (I1 & E1 & S1).
  destruct (load_vec3 files (packed_path m) false c1) as (c2 & packed) eqn:L2. destruct (load_vec3_ok _ _ _ _ _ I1 R3 L2) as (I2 & E2 & S2).
  destruct (match packed with Some h => split_packed h c2 | None => (c2, (None, None)) end) as (c3 & (hr & hm)) eqn:L3.
  assert (S3 : Inv c3 /\ Ext c2 c3 /\ match packed_path m with None => hr = None /\ hm = None | Some p => match decv p with None => hr = None /\ hm = None | Some im => (exists x, hr = Some x /\ nth_error (c_mono c3) x = Some (map_img (comp vy) im)) /\ (exists x, hm = Some x /\ nth_error (c_mono c3) x = Some (map_img (comp vz) im)) end end).
  { unfold Rv3 in S2. destruct (packed_path m) as [p|]; [|subst packed; injection L3 as <- <- <-; split; auto; split; auto using Ext_refl].
    destruct (decv p) as [im|]; [|subst packed; injection L3 as <- <- <-; split; auto; split; auto using Ext_refl]. destruct S2 as (x & -> & _ & L). eapply split_ok; eauto. }
  destruct S3 as (I3 & E3 & S3).
  destruct (load_vec3 files (a_normal m) true c3) as (c4 & normal) eqn:L4. destruct (load_vec3_ok _ _ _ _ _ I3 R4 L4) as (I4 & E4 & S4).
  destruct (load_spectral conv files (a_emissive m) false false c4) as (c5 & (emis & ea)) eqn:L5. destruct (load_spectral_ok _ _ _ _ _ _ I4 R2 L5) as (I5 & E5 & S5).
  intros [= <- <-]. split; auto. split; [eauto 6 using Ext_trans|].
  assert (E15 : Ext c1 c5) by eauto 6 using Ext_trans. assert (E35 : Ext c3 c5) by eauto using Ext_trans.
  split; [|split; [|split]]; cbn [o_albedo o_alpha o_rough o_metal o_normal o_emissive].
  - apply (Rsp_ext _ _ _ _ _ E15) in S1. replace (match albedo with Some _ => alpha | None => None end) with alpha; auto. unfold Rsp in S1. destruct (a_base m) as [p|]; [destruct (dec p) as [[im al]|]|]; [destruct S1 as (x & -> & _); auto|destruct S1; subst; auto|destruct S1; subst; auto].
  - destruct (packed_path m) as [p|]; auto. destruct (decv p); auto. destruct S3 as ((x & X1 & X2) & (y & Y1 & Y2)). split; [exists x|exists y]; split; eauto using look_mono.
  - eauto using Rv3_ext.
  - assert (ea = None) as <-; auto. unfold Rsp in S5. destruct (a_emissive m) as [p|] eqn:AE; [|tauto]. specialize (R2 p eq_refl). rewrite R2 in S5. destruct (decode_spectral conv (files p) false false) as [[im al]|] eqn:D; [|tauto].
    destruct S5 as (x & _ & _ & _ & S5). destruct al; auto. exfalso. unfold decode_spectral in D. destruct (files p) as [|[] [|]| |[|]]; discriminate.
Qed.
Lemma process_ok ms c c' os : Inv c -> (forall m, In m ms -> roles m) -> process_materials conv files ms c = (c', os) -> Inv c' /\ Ext c c' /\ Forall2 (Rmat c') ms os.
Proof.
  revert c os. induction ms as [|m ms IH]; intros c os I R; cbn [process_materials]; [intros [= <- <-]; auto using Ext_refl|].
  destruct (process_material conv files m c) as (c1 & o) eqn:L1. destruct (process_material_ok _ _ _ _ I (R m (or_introl eq_refl)) L1) as (I1 & E1 & S1).
  destruct (process_materials conv files ms c1) as (c2 & os') eqn:L2. intros [= <- <-]. destruct (IH _ _ I1 (fun m H => R m (or_intror H)) L2) as (I2 & E2 & S2).
  split; auto. split; eauto using Ext_trans. constructor; auto. eauto using Rmat_ext.
Qed.
Lemma Inv_empty : Inv empty_ctx.
Proof. constructor; cbn; try discriminate; auto; tauto. Qed.
End Inv.

(** Theorems *)
(* every path is used for one role among those that share a cache: colour or emission, data or normals *)
Definition one_role (ms : list ai_material) : Prop := forall m m' p, In m ms -> In m' ms ->
  (a_base m = Some p -> a_emissive m' <> Some p) /\ (packed_path m = Some p -> a_normal m' <> Some p).
(* a colour file on disk, linear or sRGB, or an embedded one that is linear *)
Definition plain_colour (s : source) : Prop :=
  match s with OnDisk (Some b) => b_hint b <> HGamma | Compressed true (Some b) => b_hint b = HLinear \/ b_hint b = HUnknown | RawTexels _ _ _ => False | _ => True end.
Definition plain_emission (s : source) : Prop :=
  match s with OnDisk (Some b) | Compressed true (Some b) => b_hint b = HLinear \/ b_hint b = HUnknown | RawTexels _ _ _ => False | _ => True end.
Definition plain (files : string -> source) (m : ai_material) : Prop :=
  (forall p, a_base m = Some p -> plain_colour (files p)) /\ (forall p, a_emissive m = Some p -> plain_emission (files p)) /\ a_rough m = a_metal m.
Definition uses (f : ai_material -> option string) (ms : list ai_material) (p : string) : bool := existsb (fun m => match f m with Some q => String.eqb q p | None => false end) ms.
Lemma uses_true f ms p : uses f ms p = true <-> exists m, In m ms /\ f m = Some p.
Proof.
  unfold uses. rewrite existsb_exists. split; intros (m & H & E); exists m; split; auto; destruct (f m) as [q|]; try discriminate; [apply String.eqb_eq in E; congruence|injection E as ->; apply String.eqb_refl].
Qed.
Lemma roles_ok ms m : one_role ms -> In m ms -> roles (uses a_base ms) (uses a_normal ms) m.
Proof.
  intros O M. split; [|split; [|split]]; intros p P.
  - apply uses_true. eauto.
  - apply not_true_iff_false. intros U. apply uses_true in U. destruct U as (m' & M' & Q). destruct (O m' m p M' M) as (A & _). apply A; auto.
  - apply not_true_iff_false. intros U. apply uses_true in U. destruct U as (m' & M' & Q). destruct (O m m' p M M') as (_ & A). apply A; auto.
  - apply uses_true. eauto.
Qed.
Lemma decv_stored (files : string -> source) p b : decode_vec3 (files p) b = option_map (map_img (if b then decode_normal else Some)) (stored (files p)).
Proof. unfold decode_vec3, stored. destruct (files p) as [|[] [|]| |[|]]; auto. cbn. rewrite texels_stored. reflexivity. Qed.
Lemma forall2_nth {A B} (P : A -> B -> Prop) l l' i a b : Forall2 P l l' -> nth_error l i = Some a -> nth_error l' i = Some b -> P a b.
Proof. intros F. revert i. induction F; intros [|i]; cbn; try discriminate; [intros [= <-] [= <-]; auto|eauto]. Qed.

(* The claim, for materials whose colour files are on disk and sRGB or linear, whose emission is linear, with roughness and metalness in one file. *)
Theorem C124_textures_partial : forall (Sp : Type) (conv : vec3 -> Sp) files ms c os i m o,
  load_materials conv files ms = (c, os) -> nth_error ms i = Some m -> nth_error os i = Some o -> one_role ms -> plain files m -> material_right conv files c m o.
Proof.
  intros Sp conv files ms c os i m o L M O R (PC & PE & PR). unfold load_materials in L.
  destruct (process_ok conv files (uses a_base ms) (uses a_normal ms) ms empty_ctx c os (Inv_empty _ _ _ _) (fun m' => roles_ok ms m' R) L) as (I & _ & F).
  pose proof (forall2_nth _ _ _ _ _ _ F M O) as (SB & SP & SN & SE). destruct (roles_ok ms m R (nth_error_In _ _ M)) as (R1 & R2 & R3 & R4).
  assert (PP : packed_path m = a_rough m) by (unfold packed_path; rewrite <- PR; destruct (a_rough m); auto).
  constructor.
  - unfold Rsp in SB. unfold colour_right. destruct (a_base m) as [p|]; [|destruct SB as (-> & _); auto]. specialize (PC p eq_refl). rewrite (R1 p eq_refl) in SB. unfold in_light.
    unfold decode_spectral in SB. destruct (files p) as [|[] [b|]|w h t|[b|]]; cbn in PC; try contradiction; cbn [stored light]; try (destruct SB as (-> & _); auto; fail).
    + destruct SB as (x & -> & _ & X & _). cbn [shown]. rewrite X. eexists; split; [reflexivity|]. intros LN. destruct PC as [E|E]; rewrite E in *; [|congruence]. exists (b_image b), (fun x => x). split; auto. split; auto. apply map_img_ext. intros []; auto.
    + destruct SB as (x & -> & _ & X & _). cbn [shown]. rewrite X. eexists; split; [reflexivity|]. intros LN. exists (b_image b). destruct (b_hint b); [exists (fun x => x)|exists srgb_to_linear|congruence|congruence]; (split; [reflexivity|]; split; [reflexivity|]).
      * apply map_img_ext. intros []; auto.
      * rewrite map_img_map. reflexivity.
  - unfold Rsp in SB. destruct (a_base m) as [p|]; [|destruct SB as (_ & ->); auto]. rewrite (R1 p eq_refl) in SB. unfold decode_spectral, stored_alpha in *.
    destruct (files p) as [|[] [b|]|w h t|[b|]]; cbn [shown] in *; try (destruct SB as (_ & ->); auto; fail); destruct SB as (x & _ & _ & _ & SB).
    + destruct (b_alpha b); [destruct SB as (y & -> & Y); exact Y|rewrite SB; auto].
    + destruct (0 <? w)%Z; [destruct SB as (y & -> & Y); cbn [shown]; rewrite Y, texels_alpha; auto|rewrite SB; auto].
    + destruct (b_alpha b); [destruct SB as (y & -> & Y); exact Y|rewrite SB; auto].
  - unfold data_right. rewrite PP in *. destruct (a_rough m) as [p|]; [|destruct SP as (-> & _); auto]. rewrite (decv_stored files p), (R3 p eq_refl) in SP. destruct (stored (files p)); [|destruct SP as (-> & _); auto].
    destruct SP as ((x & -> & X) & _). cbn [shown option_map]. rewrite X, map_img_map. reflexivity.
  - unfold data_right. rewrite PP, PR in *. destruct (a_metal m) as [p|]; [|destruct SP as (_ & ->); auto]. rewrite (decv_stored files p), (R3 p eq_refl) in SP. destruct (stored (files p)); [|destruct SP as (_ & ->); auto].
    destruct SP as (_ & (x & -> & X)). cbn [shown option_map]. rewrite X, map_img_map. reflexivity.
  - unfold data_right, Rv3 in *. destruct (a_normal m) as [p|]; [|rewrite SN; auto]. rewrite (decv_stored files p), (R4 p eq_refl) in SN. destruct (stored (files p)); [|cbn in SN; rewrite SN; auto].
    cbn [option_map] in *. destruct SN as (x & -> & _ & X). cbn [shown]. auto.
  - unfold Rsp in SE. unfold colour_right. destruct (a_emissive m) as [p|]; [|destruct SE as (-> & _); auto]. specialize (PE p eq_refl). rewrite (R2 p eq_refl) in SE. unfold in_light.
    unfold decode_spectral in SE. destruct (files p) as [|[] [b|]|w h t|[b|]]; cbn in PE; try contradiction; cbn [stored light]; try (destruct SE as (-> & _); auto; fail);
      (destruct SE as (x & -> & _ & X & _); cbn [shown]; rewrite X; eexists; split; [reflexivity|]; intros LN; destruct PE as [E|E]; rewrite E in *; [|congruence]; exists (b_image b), (fun x => x); split; auto; split; auto; apply map_img_ext; intros []; auto).
Qed.
(* Every file is kept once: two slots share a texture exactly when they name the same file. *)
Theorem C124_shared : forall (Sp : Type) (conv : vec3 -> Sp) files ms c os i j m m' o o' p q h h',
  load_materials conv files ms = (c, os) -> one_role ms -> nth_error ms i = Some m -> nth_error os i = Some o -> nth_error ms j = Some m' -> nth_error os j = Some o' ->
  (a_base m = Some p -> a_base m' = Some q -> o_albedo o = Some h -> o_albedo o' = Some h' -> (h = h' <-> p = q)) /\
  (a_normal m = Some p -> a_normal m' = Some q -> o_normal o = Some h -> o_normal o' = Some h' -> (h = h' <-> p = q)) /\
  (a_base m = Some p -> a_emissive m' = Some q -> o_albedo o = Some h -> o_emissive o' = Some h' -> h <> h').
Proof.
  intros Sp conv files ms c os i j m m' o o' p q h h' L R M O M' O'. unfold load_materials in L.
  destruct (process_ok conv files (uses a_base ms) (uses a_normal ms) ms empty_ctx c os (Inv_empty _ _ _ _) (fun m' => roles_ok ms m' R) L) as (I & _ & F).
  pose proof (forall2_nth _ _ _ _ _ _ F M O) as (SB & _ & SN & SE). pose proof (forall2_nth _ _ _ _ _ _ F M' O') as (SB' & _ & SN' & SE').
  assert (KS : forall path x a z, Rsp conv files (uses a_base ms) c path x a -> forall p, path = Some p -> x = Some z -> k_sp c p = Some z).
  { intros path x a z H r -> ->. unfold Rsp in H. destruct (decode_spectral _ _ _ _) as [[im al]|]; [destruct H as (w & E & K & _); congruence|destruct H; discriminate]. }
  assert (KV : forall path x z, Rv3 files (uses a_normal ms) c path x -> forall p, path = Some p -> x = Some z -> k_v3 c p = Some z).
  { intros path x z H r -> ->. unfold Rv3 in H. destruct (decode_vec3 _ _) as [im|]; [destruct H as (w & E & K & _); congruence|discriminate]. }
  split; [|split].
  - intros A B H H'. pose proof (KS _ _ _ _ SB _ A H) as K1. pose proof (KS _ _ _ _ SB' _ B H') as K2. split; [intros ->; eapply i_inj; eauto|intros ->; congruence].
  - intros A B H H'. pose proof (KV _ _ _ SN _ A H) as K1. pose proof (KV _ _ _ SN' _ B H') as K2. split; [intros ->; eapply i_injv; eauto|intros ->; congruence].
  - intros A B H H' <-. pose proof (KS _ _ _ _ SB _ A H) as K1. pose proof (KS _ _ _ _ SE' _ B H') as K2. assert (p = q) by (eapply i_inj; eauto). subst q.
    destruct (R m m' p (nth_error_In _ _ M) (nth_error_In _ _ M')) as (X & _). apply (X A B).
Qed.

(** Refuted: the other cases. Pictures of one pixel. *)
Definition px (v : vec3) : img vec3 := Img 1 1 [v].
Definition gray (g : R) : vec3 := V3 g g g.
Definition same_path (s : source) : string -> source := fun _ => s.
Definition none : ai_material := AiMat None None None None None.
Definition with_base (p : string) : ai_material := AiMat (Some p) None None None None.
Definition with_emission (p : string) : ai_material := AiMat None None None None (Some p).
Lemma dark_srgb : srgb_to_linear (4 / 100) <> 4 / 100.
Proof. unfold srgb_to_linear. destruct (Rleb (4 / 100) (4045 / 100000)) eqn:E; rb; lra. Qed.
Lemma dark_srgb8 : srgb_to_linear (10 / 255) <> 10 / 255.
Proof. unfold srgb_to_linear. destruct (Rleb (10 / 255) (4045 / 100000)) eqn:E; rb; lra. Qed.
Definition dark : bundle := Bundle (px (gray (4 / 100))) (Some (Img 1 1 [1 / 2])) HsRGB 1.
(* embedded colour textures (the usual case of .glb files) are not converted from sRGB *)
Theorem C124_embedded_refuted : forall s, s = Compressed true (Some dark) \/ s = RawTexels 1 1 [(10, 10, 10, 255)%Z] ->
  exists c o, load_materials (fun v => v) (same_path s) [with_base "a.png"] = (c, [o]) /\ ~ colour_right (fun v => v) (same_path s) (Some "a.png"%string) (shown (c_sp c) (o_albedo o)).
Proof.
  intros s [-> | ->]; cbn; eexists _, _; (split; [reflexivity|]); cbn; intros (im & [= <-] & H); destruct (H ltac:(discriminate)) as (pic & f & [= <-] & [= <-] & E); cbn in E; injection E as E _ _.
  - apply dark_srgb. auto.
  - replace (10 * (1 / 255)) with (10 / 255) in E by field. apply dark_srgb8. auto.
Qed.
(* an emission texture is not converted from sRGB *)
Theorem C124_emission_refuted : exists c o, load_materials (fun v => v) (same_path (OnDisk (Some dark))) [with_emission "e.png"] = (c, [o]) /\
  ~ colour_right (fun v => v) (same_path (OnDisk (Some dark))) (Some "e.png"%string) (shown (c_sp c) (o_emissive o)).
Proof. cbn; eexists _, _; (split; [reflexivity|]); cbn; intros (im & [= <-] & H); destruct (H ltac:(discriminate)) as (pic & f & [= <-] & [= <-] & E); cbn in E; injection E as E _ _. apply dark_srgb. auto. Qed.
(* a Radiance HDR picture holds light, and is converted from sRGB nevertheless *)
Theorem C124_hdr_refuted : exists c o, load_materials (fun v => v) (same_path (OnDisk (Some (hdr_bundle (px (gray (4 / 100))))))) [with_base "a.hdr"] = (c, [o]) /\
  shown (c_sp c) (o_albedo o) <> Some (px (gray (4 / 100))).
Proof. cbn; eexists _, _; (split; [reflexivity|]). cbn. intros E. injection E as E _ _. apply dark_srgb. auto. Qed.
(* a PNG with its own gamma is not converted *)
Theorem C124_gamma_refuted : let s := OnDisk (Some (Bundle (px (gray (1 / 4))) None HGamma 2)) in
  exists c o, load_materials (fun v => v) (same_path s) [with_base "a.png"] = (c, [o]) /\ ~ colour_right (fun v => v) (same_path s) (Some "a.png"%string) (shown (c_sp c) (o_albedo o)).
Proof.
  cbn; eexists _, _; (split; [reflexivity|]); cbn; intros (im & [= <-] & H); destruct (H ltac:(discriminate)) as (pic & f & [= <-] & [= <-] & E); cbn in E; injection E as E _ _.
  unfold gamma_to_linear in E. replace 2 with (INR 2) in E by (cbn; lra). rewrite Rpower_pow in E by lra. cbn in E. lra.
Qed.
(* a file that served as emission first is shown unconverted and opaque as a base colour later; in the other order it is right *)
Theorem C124_order_refuted : let files := same_path (OnDisk (Some dark)) in
  (exists c o o', load_materials (fun v => v) files [with_emission "a.png"; with_base "a.png"] = (c, [o; o']) /\
     ~ colour_right (fun v => v) files (Some "a.png"%string) (shown (c_sp c) (o_albedo o')) /\ shown (c_mono c) (o_alpha o') = None /\ stored_alpha (files "a.png"%string) = Some (Img 1 1 [1 / 2])) /\
  (exists c o o', load_materials (fun v => v) files [with_base "a.png"; with_emission "a.png"] = (c, [o; o']) /\
     colour_right (fun v => v) files (Some "a.png"%string) (shown (c_sp c) (o_albedo o)) /\ shown (c_mono c) (o_alpha o) = stored_alpha (files "a.png"%string)).
Proof.
  cbn; split; eexists _, _, _; (split; [reflexivity|]); cbn.
  - split; auto. intros (im & [= <-] & H); destruct (H ltac:(discriminate)) as (pic & f & [= <-] & [= <-] & E); cbn in E; injection E as E _ _. apply dark_srgb. auto.
  - split; auto. eexists; split; [reflexivity|]. intros _. exists (px (gray (4 / 100))), srgb_to_linear. auto.
Qed.
(* roughness and metalness in two files: metalness is read from the roughness file *)
Theorem C124_two_files_refuted : let files := fun p => OnDisk (Some (Bundle (px (if String.eqb p "r.png" then V3 0 (1 / 2) 0 else V3 0 0 1)) None HLinear 1)) in
  exists c o, load_materials (fun v => v) files [AiMat None (Some "r.png"%string) (Some "m.png"%string) None None] = (c, [o]) /\
    ~ data_right vz files (Some "m.png"%string) (shown (c_mono c) (o_metal o)).
Proof. cbn; eexists _, _; (split; [reflexivity|]). unfold data_right. cbn. intros [= E]. lra. Qed.
(* one file as roughness map and as normal map: the normals are not decoded *)
Theorem C124_two_roles_refuted : let files := same_path (OnDisk (Some (Bundle (px (V3 (1 / 2) (1 / 2) 1)) None HLinear 1))) in
  exists c o, load_materials (fun v => v) files [AiMat None (Some "n.png"%string) (Some "n.png"%string) (Some "n.png"%string) None] = (c, [o]) /\
    ~ data_right decode_normal files (Some "n.png"%string) (shown (c_v3 c) (o_normal o)).
Proof.
  cbn; eexists _, _; (split; [reflexivity|]). unfold data_right. cbn. intros [= E]. unfold decode_normal, onorm, vsub, vscale, dot in E. cbn in E. destruct (Req_EM_T _ 0); [discriminate|]. injection E as E _ _. lra.
Qed.
Theorem C124_refuted : ~ claim.
Proof.
  intros C. destruct C124_emission_refuted as (c & o & L & N). apply N. exact (r_emissive _ _ _ _ _ (C _ _ _ _ _ _ 0%nat (with_emission "e.png") o L eq_refl eq_refl)).
Qed.
(* witness: two materials, four files, sRGB and linear, one file missing *)
Example C124_nonvacuous :
  let files := fun p => if String.eqb p "c.png" then OnDisk (Some dark) else if String.eqb p "rm.png" then OnDisk (Some (Bundle (px (V3 0 (1 / 2) 1)) None HLinear 1)) else if String.eqb p "n.png" then RawTexels 1 1 [(128, 128, 255, 255)%Z] else Missing in
  let ms := [AiMat (Some "c.png") (Some "rm.png") (Some "rm.png") (Some "n.png") (Some "gone.png"); AiMat (Some "c.png") None None None None]%string in
  one_role ms /\ (forall m, In m ms -> plain files m) /\ exists c o o', load_materials (fun v => v) files ms = (c, [o; o']) /\ o_albedo o = Some 0%nat /\ o_albedo o' = Some 0%nat /\ o_emissive o = None /\
    shown (c_mono c) (o_rough o) = Some (Img 1 1 [1 / 2]) /\ shown (c_mono c) (o_metal o) = Some (Img 1 1 [1]).
Proof.
  cbn zeta. split; [|split].
  - intros m m' p [<-|[<-|[]]] [<-|[<-|[]]]; cbn; split; congruence.
  - intros m [<-|[<-|[]]]; (split; [|split]); cbn; try congruence; intros p [= <-]; cbn; auto; discriminate.
  - cbn. eexists _, _, _. split; [reflexivity|]. cbn. auto 10.
Qed.
