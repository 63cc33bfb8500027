(* C132, C133: reading an image by its name, and the directories of a file to be written. *)
From Verif Require Import Common NameModel.
From Coq Require Import Ascii.
Local Open Scope string_scope.
Local Open Scope list_scope.

(** specification *)
Definition dot_free (s : string) : Prop := forall a b, s <> String.append a (String "." b).
(* the extension of a name: what follows the last dot, with the dot; something must stand before it *)
Definition has_extension (name e : string) : Prop := exists stem t, stem <> "" /\ name = String.append stem e /\ e = String "." t /\ dot_free t /\ name <> "..".
(* the documented extensions *)
Definition named (f : format) : list string :=
  match f with BMP => [".bmp"; ".BMP"] | FITS => [".fits"; ".FITS"] | HDR => [".hdr"; ".HDR"] | JPEG => [".jpg"; ".jpeg"; ".JPG"; ".JPEG"] | PNG => [".png"; ".PNG"] | TGA => [".tga"; ".TGA"]
  | TIFF => [".tif"; ".tiff"; ".TIF"; ".TIFF"] | UNKNOWN => [] end.

(** names *)
Lemma append_empty s : String.append s "" = s. Proof. induction s; cbn; congruence. Qed.
Lemma append_assoc a b c : String.append (String.append a b) c = String.append a (String.append b c). Proof. induction a; cbn; congruence. Qed.
Lemma append_inj a b c : String.append a b = String.append a c -> b = c. Proof. induction a; cbn; auto. intros H. inversion H. auto. Qed.
Lemma last_dot_none s : last_dot s = None <-> dot_free s.
Proof.
  induction s as [|c s IH]; cbn; [split; auto; intros _ [|x a] b H; discriminate|]. destruct (last_dot s) as [(a, b)|] eqn:E.
  - split; [discriminate|]. intros D. exfalso. assert (N : ~ dot_free s) by (intros Q; apply IH in Q; discriminate). apply N. intros x y H. apply (D (String c x) y). cbn. congruence.
  - destruct (Ascii.eqb_spec c ".") as [->|NE]; [split; [discriminate|]; intros D; exfalso; apply (D "" s); reflexivity|]. split; auto. intros _ [|x a] b H; cbn in H; inversion H; [contradiction|]. subst. apply (proj1 IH eq_refl a b). reflexivity.
Qed.
Lemma last_dot_some s a e : last_dot s = Some (a, e) <-> s = String.append a e /\ exists t, e = String "." t /\ dot_free t.
Proof.
  revert a e. induction s as [|c s IH]; intros a e; cbn; [split; [discriminate|]; intros (H & t & -> & _); destruct a; discriminate|]. destruct (last_dot s) as [(a', b')|] eqn:E.
  - specialize (IH a' b'). destruct (proj1 IH eq_refl) as (S & t & T & D). split.
    + intros H. inversion H; subst. split; eauto.
    + intros (H & t' & T' & D'). destruct a as [|x a]; cbn in H.
      * exfalso. rewrite T' in H. inversion H; subst. apply (D' a' t). auto.
      * inversion H; subst x. assert (Q : last_dot s = Some (a, e)). { rewrite E. apply f_equal. assert (X : String.append a' b' = String.append a e) by congruence. clear - X T D T' D'. subst b' e. revert a X. induction a' as [|y a' IHa]; intros [|z a] X; cbn in X; inversion X; subst; auto; [exfalso; apply (D a t'); auto|exfalso; apply (D' a' t); auto|].
          specialize (IHa a ltac:(auto)). congruence. } rewrite E in Q. inversion Q. reflexivity.
  - apply last_dot_none in E. destruct (Ascii.eqb_spec c ".") as [->|NE].
    + split; [intros H; inversion H; subst; cbn; split; auto; exists s; auto|]. intros (H & t & -> & D). destruct a as [|x a]; cbn in H; [inversion H; subst; auto|]. inversion H; subst. exfalso. apply (E a t). auto.
    + split; [discriminate|]. intros (H & t & -> & D). destruct a as [|x a]; cbn in H; inversion H; [contradiction|]. subst. exfalso. apply (E a t). auto.
Qed.
Lemma extension_spec name e : e <> "" -> (extension name = e <-> has_extension name e).
Proof.
  intros NE. unfold extension. destruct (String.eqb_spec name ".") as [->|N1]; cbn.
  - split; [congruence|]. intros (stem & t & S & H & -> & _). destruct stem as [|c [|c2 stem] ]; cbn in H; [contradiction|inversion H|inversion H].
  - destruct (String.eqb_spec name "..") as [->|N2]; [split; [congruence|]; intros (? & ? & _ & _ & _ & _ & N); contradiction|]. destruct (last_dot name) as [(a, b)|] eqn:E.
    + destruct (proj1 (last_dot_some _ _ _) E) as (S & t & T & D). destruct a as [|c a].
      * split; [congruence|]. intros (stem & t' & SN & H & T' & D' & _). assert (Q : last_dot name = Some (stem, e)) by (apply last_dot_some; eauto). rewrite E in Q. inversion Q. congruence.
      * split; [intros ->; exists (String c a), t; repeat split; auto; discriminate|]. intros (stem & t' & SN & H & T' & D' & _). assert (Q : last_dot name = Some (stem, e)) by (apply last_dot_some; eauto). rewrite E in Q. inversion Q. auto.
    + split; [congruence|]. intros (stem & t' & SN & H & T' & D' & _). assert (Q : last_dot name = Some (stem, e)) by (apply last_dot_some; eauto). congruence.
Qed.
Lemma extension_unique name e1 e2 : has_extension name e1 -> has_extension name e2 -> e1 = e2.
Proof.
  intros H1 H2. assert (N : forall e, has_extension name e -> e <> "") by (intros e (? & ? & _ & _ & -> & _); discriminate). rewrite <- (proj2 (extension_spec name e1 (N _ H1)) H1). apply (extension_spec name e2 (N _ H2)). exact H2.
Qed.
Lemma ext_nonempty n e : has_extension n e -> extension n <> "".
Proof. intros H. assert (N : e <> "") by (destruct H as (? & ? & _ & _ & -> & _); discriminate). apply (extension_spec n e N) in H. congruence. Qed.
Lemma detect_cases p : detect_format p = UNKNOWN \/ In (extension (filename p)) (named (detect_format p)).
Proof.
  unfold detect_format. repeat match goal with |- context [String.eqb (extension (filename p)) ?s] => destruct (String.eqb_spec (extension (filename p)) s) as [->|]; cbn; [right; tauto|] end. left. reflexivity.
Qed.

(** C132 *)
(* the format goes by the extension, and only the documented spellings count *)
Theorem C132_format : forall p f, f <> UNKNOWN -> (detect_format p = f <-> exists e, In e (named f) /\ has_extension (filename p) e).
Proof.
  intros p f NU. split.
  - intros <-. destruct (detect_cases p) as [E|I]; [contradiction|]. exists (extension (filename p)). split; auto. apply extension_spec; auto. intros E. rewrite E in I. destruct (detect_format p); cbn in I; intuition discriminate.
  - intros (e & I & H). assert (E : extension (filename p) = e) by (apply extension_spec; auto; intros ->; destruct f; cbn in I; intuition discriminate). unfold detect_format. rewrite E. destruct f; cbn in I; repeat (destruct I as [<-|I]; [reflexivity|]); destruct I.
Qed.
(* REFUTED: other spellings of the same extension are not recognised *)
Theorem C132_case_refuted : forall dir, detect_format (dir ++ ["photo.Jpg"]) = UNKNOWN /\ detect_format (dir ++ ["photo.Png"]) = UNKNOWN /\ detect_format (dir ++ ["photo.jpg"]) = JPEG.
Proof. intros dir. unfold detect_format, filename. rewrite !last_last. repeat split. Qed.
(* a picture is decoded from exactly the bytes of the file by the decoder of its format; everything else is an exception *)
Theorem C132_whole_file : forall {image} (decode : format -> list Z -> bool -> option image) p f alpha im,
  snd (read_image decode p f alpha) = Some im -> exists bytes, s_bytes f = Some bytes /\ (0 < s_tell f <= Z.of_nat (List.length bytes))%Z /\
    (s_tell f = Z.of_nat (List.length bytes) -> exists fl, decode (detect_format p) bytes fl = Some im /\ (fl = true -> alpha = true)) /\ detect_format p <> UNKNOWN /\ detect_format p <> FITS.
Proof.
  intros image decode p f alpha im H. unfold read_image, read_file in H. destruct (s_bytes f) as [bytes|]; [|discriminate]. exists bytes. split; auto. destruct (Z.leb_spec (s_tell f) 0); [discriminate|]. destruct (s_memory f); [|discriminate]. cbn [negb] in H.
  rewrite firstn_length in H. destruct (Z.eqb_spec (Z.of_nat (Nat.min (Z.to_nat (s_tell f)) (List.length bytes))) (s_tell f)) as [E|]; [|discriminate]. cbn [negb snd] in H. assert (LE : (s_tell f <= Z.of_nat (List.length bytes))%Z) by lia. split; [lia|]. split; [|destruct (detect_format p); try discriminate; split; discriminate].
  intros EQ. rewrite EQ, Nat2Z.id, firstn_all in H. destruct (detect_format p); cbn in H; try discriminate; eauto; exists false; split; auto; discriminate.
Qed.
(* a readable, non-empty file with a known extension reaches its decoder *)
Theorem C132_reaches_decoder : forall {image} (decode : format -> list Z -> bool -> option image) p bytes alpha, bytes <> [] -> ~ In (detect_format p) [UNKNOWN; FITS] ->
  exists fl, read_image decode p (Stdio (Some bytes) (Z.of_nat (List.length bytes)) true) alpha = ([Opened; Closed], decode (detect_format p) bytes fl) /\ (~ In (detect_format p) [HDR; JPEG] -> fl = alpha).
Proof.
  intros image decode p bytes alpha NE F. assert (L : (0 < Z.of_nat (List.length bytes))%Z) by (destruct bytes; [contradiction|cbn; lia]). unfold read_image, read_file. cbn [s_bytes s_tell s_memory negb]. destruct (Z.leb_spec (Z.of_nat (List.length bytes)) 0); [lia|]. rewrite Nat2Z.id, firstn_all, Z.eqb_refl. cbn [negb].
  destruct (detect_format p); cbn; try (exists alpha; split; [reflexivity|auto]; fail); try (exfalso; apply F; cbn; tauto); exists false; (split; [reflexivity|]); intros N; exfalso; apply N; cbn; tauto.
Qed.
(* the file is closed on every path, unless there is no memory for the buffer *)
Theorem C132_closed_partial : forall {image} (decode : format -> list Z -> bool -> option image) p f alpha, s_memory f = true -> List.count_occ (fun a b : event => ltac:(decide equality)) (fst (read_image decode p f alpha)) Opened = List.count_occ (fun a b : event => ltac:(decide equality)) (fst (read_image decode p f alpha)) Closed.
Proof.
  intros image decode p f alpha M. unfold read_image, read_file. destruct (s_bytes f) as [bytes|]; [|reflexivity]. destruct (s_tell f <=? 0)%Z; [reflexivity|]. rewrite M. cbn [negb]. destruct (negb _); reflexivity.
Qed.
Theorem C132_leak_refuted : forall bytes n, (0 < n)%Z -> read_file (Stdio (Some bytes) n false) = ([Opened], None).
Proof. intros bytes n N. unfold read_file. cbn. destruct (Z.leb_spec n 0); [lia|reflexivity]. Qed.
Example C132_nonvacuous : detect_format ["data"; "a.b.TIFF"] = TIFF /\ detect_format ["x.png"; ".png"] = UNKNOWN /\ detect_format ["x.png"; ".."] = UNKNOWN /\
  read_image (fun f l a => Some (f, l, a)) ["m.png"] (Stdio (Some [1; 2; 3]%Z) 3 true) true = ([Opened; Closed], Some (PNG, [1; 2; 3]%Z, true)).
Proof. repeat split. Qed.

(** C133 *)
(* no prefix of the components is a file *)
Definition unblocked (t : tree) (q : list string) : Prop := forall k, at_path t (firstn k q) <> Some File.
Lemma kind_dec (a b : option kind) : {a = b} + {a <> b}. Proof. repeat decide equality. Qed.
Lemma list_eqb_refl q : list_eqb q q = true. Proof. unfold list_eqb. destruct (list_eq_dec string_dec q q); congruence. Qed.
Lemma create_from_ok todo : forall t done, (forall k, at_path t (done ++ firstn k todo) <> Some File) -> at_path t done = Some Dir ->
  let '(t', ok) := create_from t done todo in ok = true /\ at_path t' (done ++ todo) = Some Dir /\ (forall r, t r <> None -> t' r = t r) /\ (forall r, t' r <> t r -> t' r = Some Dir /\ exists k, r = done ++ firstn k todo).
Proof.
  induction todo as [|c todo IH]; intros t done B D; cbn [create_from].
  - rewrite app_nil_r. repeat split; auto; congruence.
  - assert (NIL : forall q : list string, done ++ [c] ++ q = done ++ c :: q) by reflexivity. assert (AP : forall t', at_path t' (done ++ [c]) = t' (done ++ [c])) by (intros t'; unfold at_path; destruct (done ++ [c]) eqn:E; auto; destruct done; discriminate).
    assert (STEP : forall t', (forall r, t r <> None -> t' r = t r) -> (forall r, t' r <> t r -> t' r = Some Dir /\ r = done ++ [c]) -> at_path t' (done ++ [c]) = Some Dir -> (let '(t'', ok) := create_from t' (done ++ [c]) todo in
       ok = true /\ at_path t'' (done ++ c :: todo) = Some Dir /\ (forall r, t r <> None -> t'' r = t r) /\ (forall r, t'' r <> t r -> t'' r = Some Dir /\ exists k, r = done ++ firstn k (c :: todo)))).
    { intros t' K1 K2 K3. specialize (IH t' (done ++ [c])). destruct (create_from t' (done ++ [c]) todo) as (t'', ok). destruct IH as (A1 & A2 & A3 & A4); auto.
      - intros k E. rewrite <- app_assoc in E. change ([c] ++ firstn k todo) with (firstn (S k) (c :: todo)) in E. unfold at_path in E. destruct (done ++ firstn (S k) (c :: todo)) eqn:Q; [discriminate|]. rewrite <- Q in E. destruct (t (done ++ firstn (S k) (c :: todo))) as [x|] eqn:TX.
        + apply (B (S k)). unfold at_path. rewrite Q. rewrite <- Q. rewrite <- E. symmetry. apply K1. congruence.
        + assert (N : t' (done ++ firstn (S k) (c :: todo)) <> t (done ++ firstn (S k) (c :: todo))) by congruence. destruct (K2 _ N). congruence.
      - split; auto. rewrite <- app_assoc in A2. split; auto. split; [intros r R; rewrite A3; [apply K1; auto|rewrite K1; auto]|]. intros r R. destruct (kind_dec (t'' r) (t' r)) as [E|E].
        + rewrite E in *. destruct (K2 r R) as (X & ->). split; auto. exists 1%nat. reflexivity.
        + destruct (A4 r E) as (X & k & ->). split; auto. exists (S k). rewrite <- app_assoc. reflexivity. }
    destruct (at_path t (done ++ [c])) as [ [|]|] eqn:E.
    + exfalso. apply (B 1%nat). exact E.
    + apply STEP; auto. intros r R. congruence.
    + apply STEP.
      * intros r R. unfold mkdir. unfold list_eqb. destruct (list_eq_dec string_dec (done ++ [c]) r) as [<-|]; auto. rewrite AP in E. congruence.
      * intros r R. unfold mkdir, list_eqb in *. destruct (list_eq_dec string_dec (done ++ [c]) r) as [<-|]; auto. congruence.
      * rewrite AP. unfold mkdir. rewrite list_eqb_refl. reflexivity.
Qed.
Lemma created t p t' ok : unblocked t (resolve p) -> create_directories t p = (t', ok) -> ok = true /\ at_path t' (resolve p) = Some Dir /\ (forall r, t r <> None -> t' r = t r) /\ (forall r, t' r <> t r -> t' r = Some Dir /\ exists k, r = firstn k (resolve p)).
Proof. intros U E. pose proof (create_from_ok (resolve p) t [] U eq_refl) as H. unfold create_directories in E. rewrite E in H. exact H. Qed.
Lemma resolve_app a b : resolve (a ++ b) = resolve a ++ resolve b. Proof. apply filter_app. Qed.
Lemma resolve_last p : filename p <> "" -> resolve p = resolve (removelast p) ++ [filename p].
Proof.
  intros F. destruct p as [|c p] using rev_ind; [contradiction|]. unfold filename in *. rewrite last_last in *. rewrite removelast_last, resolve_app. f_equal. unfold resolve. cbn. destruct (String.eqb_spec c ""); [contradiction|reflexivity].
Qed.
(* what is there stays as it is; only directories on the way to the path are added *)
Theorem C133_nothing_lost : forall t p t' ok, unblocked t (resolve p) -> make_path t p = (t', ok) -> ok = true /\ (forall r, t r <> None -> t' r = t r) /\ (forall r, t' r <> t r -> t' r = Some Dir /\ exists k, r = firstn k (resolve p)).
Proof.
  intros t p t' ok U H. unfold make_path in H. destruct p as [|c p]; [inversion H; subst; repeat split; auto; congruence|]. destruct (String.eqb_spec (extension (filename (c :: p))) "") as [E|E]; cbn [negb] in H.
  - destruct (created _ _ _ _ U H) as (A & _ & B & C). auto.
  - assert (FN : filename (c :: p) <> "") by (intros Q; rewrite Q in E; apply E; reflexivity). pose proof (resolve_last _ FN) as RL. assert (U' : unblocked t (resolve (removelast (c :: p)))).
    { intros k Q. apply (U (Nat.min k (List.length (resolve (removelast (c :: p)))))). rewrite RL, firstn_app. replace (Nat.min k _ - _)%nat with O by lia. rewrite firstn_O, app_nil_r. rewrite <- Q. f_equal. destruct (Nat.le_ge_cases k (List.length (resolve (removelast (c :: p))))) as [L|L]; [rewrite Nat.min_l by auto; reflexivity|rewrite Nat.min_r by auto; rewrite firstn_all, firstn_all2 by auto; reflexivity]. }
    assert (G : forall q, q = removelast (c :: p) -> create_directories t q = (t', ok) -> ok = true /\ (forall r, t r <> None -> t' r = t r) /\ (forall r, t' r <> t r -> t' r = Some Dir /\ exists k, r = firstn k (resolve (c :: p)))).
    { intros q -> Q. destruct (created _ _ _ _ U' Q) as (A & _ & B & C). split; auto. split; auto. intros r R. destruct (C r R) as (X & k & ->). split; auto. exists (Nat.min k (List.length (resolve (removelast (c :: p))))). rewrite RL, firstn_app. replace (Nat.min k _ - _)%nat with O by lia. rewrite firstn_O, app_nil_r. destruct (Nat.le_ge_cases k (List.length (resolve (removelast (c :: p))))) as [L|L]; [rewrite Nat.min_l by auto; reflexivity|rewrite Nat.min_r by auto; rewrite firstn_all, firstn_all2 by auto; reflexivity]. }
    destruct (removelast (c :: p)) as [|d q] eqn:RP; [inversion H; subst; repeat split; auto; congruence|]. apply (G (d :: q)); auto.
Qed.
(* the full claim for image writers: after make_path(p) the file can be written. Proved for names with an extension *)
Theorem C133_file_ready_partial : forall t p e t' ok, has_extension (filename p) e -> unblocked t (resolve (removelast p)) -> at_path t (resolve p) <> Some Dir -> make_path t p = (t', ok) -> ok = true /\ can_write t' p = true.
Proof.
  intros t p e t' ok HE U ND H. assert (FN : filename p <> "") by (destruct HE as (stem & x & S & -> & _); destruct stem; [contradiction|discriminate]). assert (EX : extension (filename p) <> "") by (exact (ext_nonempty _ _ HE)).
  pose proof (resolve_last _ FN) as RL. assert (PN : resolve p <> []) by (rewrite RL; destruct (resolve (removelast p)); discriminate). unfold make_path in H. destruct p as [|c p]; [exfalso; apply FN; reflexivity|]. destruct (String.eqb_spec (extension (filename (c :: p))) "") as [E|_]; [contradiction|]. cbn [negb] in H.
  assert (G : at_path t' (resolve (removelast (c :: p))) = Some Dir /\ ok = true /\ t' (resolve (c :: p)) = t (resolve (c :: p))).
  { destruct (removelast (c :: p)) as [|d q] eqn:RP; [inversion H; subst; auto|]. destruct (created _ _ _ _ U H) as (A & B & _ & C). split; auto. split; auto. destruct (kind_dec (t' (resolve (c :: p))) (t (resolve (c :: p)))) as [|NE]; auto. exfalso. destruct (C _ NE) as (_ & k & Q). apply (f_equal (@List.length _)) in Q. rewrite RL, app_length in Q. cbn [List.length] in Q. rewrite firstn_length in Q. lia. }
  destruct G as (G1 & -> & G2). split; auto. unfold can_write. destruct (String.eqb_spec (filename (c :: p)) ""); [contradiction|]. rewrite G1. unfold at_path in *. destruct (resolve (c :: p)) eqn:RE; [contradiction|]. rewrite G2. destruct (t (s :: l)) as [ [|]|]; auto.
Qed.
(* REFUTED without one: the path itself becomes a directory and can never be opened *)
Theorem C133_no_extension_refuted : forall t p t' ok, p <> [] -> (forall e, ~ has_extension (filename p) e) -> unblocked t (resolve p) -> make_path t p = (t', ok) -> can_write t' p = false /\ at_path t' (resolve p) = Some Dir.
Proof.
  intros t p t' ok NP NE U H. assert (E : extension (filename p) = "") by (destruct (string_dec (extension (filename p)) "") as [|N]; auto; exfalso; apply (NE (extension (filename p))); apply extension_spec; auto). unfold make_path in H. destruct p as [|c p]; [contradiction|]. rewrite E in H. cbn [String.eqb negb] in H.
  destruct (created _ _ _ _ U H) as (_ & B & _). split; auto. unfold can_write. destruct (String.eqb (filename (c :: p)) ""); auto. rewrite B. destruct (at_path t' (resolve (removelast (c :: p)))) as [ [|]|]; auto.
Qed.
(* the full claim for output directories: after make_path(p), p is a directory. Proved for names without an extension *)
Theorem C133_directory_partial : forall t p t' ok, p <> [] -> (forall e, ~ has_extension (filename p) e) -> unblocked t (resolve p) -> make_path t p = (t', ok) -> ok = true /\ at_path t' (resolve p) = Some Dir.
Proof. intros t p t' ok NP NE U H. split; [apply (C133_nothing_lost _ _ _ _ U H)|apply (C133_no_extension_refuted _ _ _ _ NP NE U H)]. Qed.
(* REFUTED with one: the directory is not made *)
Theorem C133_dotted_directory_refuted : forall t p e t' ok, has_extension (filename p) e -> unblocked t (resolve (removelast p)) -> at_path t (resolve p) = None -> make_path t p = (t', ok) -> ok = true /\ at_path t' (resolve p) = None.
Proof.
  intros t p e t' ok HE U ND H. assert (FN : filename p <> "") by (destruct HE as (stem & x & S & -> & _); destruct stem; [contradiction|discriminate]). destruct (C133_file_ready_partial t p e t' ok HE U ltac:(congruence) H) as (OK & W). split; auto. unfold can_write in W. destruct (String.eqb_spec (filename p) ""); [contradiction|].
  assert (EX : extension (filename p) <> "") by (exact (ext_nonempty _ _ HE)). pose proof (resolve_last _ FN) as RL. unfold make_path in H. destruct p as [|c p]; [exfalso; apply FN; reflexivity|]. destruct (String.eqb_spec (extension (filename (c :: p))) "") as [E|_]; [contradiction|]. cbn [negb] in H.
  destruct (removelast (c :: p)) as [|d q] eqn:RP; [inversion H; subst; auto|]. destruct (created _ _ _ _ U H) as (A & B & _ & C). unfold at_path in *. destruct (resolve (c :: p)) eqn:RE; [discriminate|]. destruct (kind_dec (t' (s :: l)) (t (s :: l))) as [|NE]; [congruence|]. exfalso. destruct (C _ NE) as (_ & k & Q). apply (f_equal (@List.length _)) in Q. rewrite RL, app_length in Q. cbn [List.length] in Q. rewrite firstn_length in Q. lia.
Qed.
(* a file where a directory is needed: an exception, and the file is still there *)
Lemma create_from_keeps todo : forall t done, at_path t done <> Some File -> let '(t', ok) := create_from t done todo in (forall r, t r <> None -> t' r = t r) /\ ((exists k, at_path t (done ++ firstn k todo) = Some File) -> ok = false).
Proof.
  induction todo as [|c todo IH]; intros t done ND; cbn [create_from].
  - split; auto. intros (k & E). rewrite firstn_nil, app_nil_r in E. contradiction.
  - assert (AP : forall t', at_path t' (done ++ [c]) = t' (done ++ [c])) by (intros t'; unfold at_path; destruct (done ++ [c]) eqn:E; auto; destruct done; discriminate).
    destruct (at_path t (done ++ [c])) as [ [|]|] eqn:E.
    + split; auto.
    + specialize (IH t (done ++ [c]) ltac:(congruence)). destruct (create_from t (done ++ [c]) todo) as (t', ok). destruct IH as (A & B). split; auto. intros (k & K). apply B. destruct k as [|k]; [rewrite firstn_O, app_nil_r in K; contradiction|]. exists k. rewrite <- app_assoc. exact K.
    + assert (M : forall r, t r <> None -> mkdir t (done ++ [c]) r = t r). { intros r R. unfold mkdir, list_eqb. destruct (list_eq_dec string_dec (done ++ [c]) r) as [<-|]; auto. rewrite AP in E. congruence. }
      assert (N : at_path (mkdir t (done ++ [c])) (done ++ [c]) <> Some File) by (rewrite AP; unfold mkdir; rewrite list_eqb_refl; discriminate).
      specialize (IH (mkdir t (done ++ [c])) (done ++ [c]) N). destruct (create_from (mkdir t (done ++ [c])) (done ++ [c]) todo) as (t', ok). destruct IH as (A & B). split; [intros r R; rewrite A; [auto|rewrite M; auto]|]. intros (k & K). apply B. destruct k as [|k]; [rewrite firstn_O, app_nil_r in K; contradiction|]. exists k. rewrite <- app_assoc. unfold at_path in *. cbn [app] in *. destruct (done ++ firstn (S k) (c :: todo)) eqn:Q; [discriminate|]. change (c :: firstn k todo) with (firstn (S k) (c :: todo)). rewrite Q. rewrite M; congruence.
Qed.
Theorem C133_blocked : forall t p k t' ok, at_path t (firstn k (resolve p)) = Some File -> (forall e, ~ has_extension (filename p) e) -> make_path t p = (t', ok) -> ok = false /\ t' (firstn k (resolve p)) = Some File /\ forall r, t r <> None -> t' r = t r.
Proof.
  intros t p k t' ok F NE H. assert (E : extension (filename p) = "") by (destruct (string_dec (extension (filename p)) "") as [|N]; auto; exfalso; apply (NE (extension (filename p))); apply extension_spec; auto). unfold make_path in H. destruct p as [|c p]; [rewrite firstn_nil in F; discriminate|]. rewrite E in H. cbn [String.eqb negb] in H. unfold create_directories in H.
  pose proof (create_from_keeps (resolve (c :: p)) t [] ltac:(discriminate)) as Q. rewrite H in Q. destruct Q as (A & B). split; [apply B; exists k; exact F|]. split; auto. unfold at_path in F. destruct (firstn k (resolve (c :: p))) eqn:FF; [discriminate|]. rewrite A; congruence.
Qed.
Example C133_nonvacuous : let t : tree := fun q => if list_eqb q ["out"] then Some Dir else None in
  can_write (fst (make_path t ["out"; "run"; "a.png"])) ["out"; "run"; "a.png"] = true /\ can_write (fst (make_path t ["out"; "a"])) ["out"; "a"] = false /\ fst (make_path t ["out"; "v1.2"]) ["out"; "v1.2"] = None /\
  has_extension "v1.2" ".2" /\ forall e, ~ has_extension "a" e.
Proof.
  repeat split; [exists "v1", "2"; repeat split; try discriminate; intros [|c a] b H; cbn in H; [discriminate|]; inversion H as [ [H1 H2] ]; destruct a; discriminate|].
  intros e (stem & x & S & H & -> & _). destruct stem as [|c [|c2 stem] ]; [contradiction| |]; cbn in H; inversion H.
Qed.
