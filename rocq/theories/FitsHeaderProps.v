(* C148: the metadata of a FITS image that is written and read. *)
From Coq Require Import Reals ZArith String Ascii List Bool Lra Lia.
From Flocq Require Import Core Relative.
From Verif Require Import Common FitsHeaderModel FitsHeaderProofs.
Import ListNotations.
Open Scope string_scope.

(** ** Specification *)
(* a text of at most n characters that does not end in a blank *)
Definition plain (n : nat) (s : string) : Prop := (String.length s <= n)%nat /\ forall r, s <> (r ++ " ")%string.
(* a number that went through a header: the nearest decimal of 11 (7) significant digits, read as the nearest double (float) *)
Definition comes (x : R) : R := to_double (digits 11 x).
Definition comes_float (x : R) : R := to_float (to_double (digits 7 x)).
Definition comes_value (v : hval) : hval := match v with HNum x => HNum (comes x) | v => v end.
(* the metadata that the header can carry *)
Definition custom_ok (w : keyword) : Prop := ~ In (kw_key w) known /\ kw_key w <> "" /\ kw_key w <> "BLANK" /\ kw_key w <> "COMMENT" /\ kw_key w <> "HISTORY" /\ (String.length (kw_key w) <= 8)%nat /\ forall s, kw_value w = HStr s -> s <> "" /\ plain 68 s.
Definition no_wcs (m : meta) : Prop := crpix1 m = None /\ crpix2 m = None /\ crval1 m = None /\ crval2 m = None /\ cdelt1 m = None /\ cdelt2 m = None /\ ctype1 m = "" /\ ctype2 m = "" /\ equinox m = 2000%R /\ radesys m = "ICRS".
Definition first_axis (m : meta) : Prop := crpix1 m <> None \/ crval1 m <> None \/ cdelt1 m <> None \/ ctype1 m <> "".
Definition texts (m : meta) : list string := [object m; telescop m; instrume m; observer m; date_obs m; origin m; filter m; bunit m; ctype1 m; ctype2 m; radesys m].
Definition carried (m : meta) : Prop :=
  Forall (plain 68) (texts m) /\ (0 <= exptime m)%R /\ radesys m <> "" /\ (first_axis m \/ no_wcs m) /\
  (forall s, In s (comments m ++ history m)%list -> s <> "" /\ plain 72 s) /\
  NoDup (map kw_key (custom m)) /\ Forall custom_ok (custom m).
(* the values the file holds, of the pixels that are finite *)
Definition undefined (p : picture) : Prop := In None (pixels p).
Definition is_integer (b : Z) : Prop := b = 8%Z \/ b = 16%Z \/ b = 32%Z.
(* the default SATURATE: the largest number of the sensor's ADC, or of the file when the sensor has no bit depth *)
Definition full_scale (b bits : Z) : R := if (0 <? bits)%Z then IZR (2 ^ bits - 1) else if (b =? 8)%Z then 255 else if (b =? 16)%Z then 32767 else 2147483647.
Definition blank_keyword (b : Z) : keyword := Kw "BLANK" (HInt (blank_value b)) "Value representing undefined pixels".
(* what comes back: m itself with its numbers in decimal, the defaults of an integer image filled in, the range of the pixels, the
   comments of every FITS file in front *)
Record comes_back (b : Z) (p : picture) (m r : meta) : Prop := {
  cb_texts : object r = object m /\ telescop r = telescop m /\ instrume r = instrume m /\ observer r = observer m /\ date_obs r = date_obs m /\ origin r = origin m /\ filter r = filter m /\ ctype1 r = ctype1 m /\ ctype2 r = ctype2 m /\ radesys r = radesys m;
  cb_exptime : exptime r = comes_float (exptime m);
  cb_bunit : bunit r = bunit m /\ ~ (is_integer b /\ bunit m = "") \/ is_integer b /\ bunit m = "" /\ bunit r = "adu";
  cb_saturate : saturate r = option_map comes (saturate m) /\ ~ (is_integer b /\ saturate m = None) \/ is_integer b /\ saturate m = None /\ saturate r = Some (comes (full_scale b (p_bits p)));
  cb_datamin : match datamin m with Some x => datamin r = Some (comes x) | None => datamin r = Some (comes (fold_left Rmin (finite_values b p) flt_max)) end;
  cb_datamax : match datamax m with Some x => datamax r = Some (comes x) | None => datamax r = Some (comes (fold_left Rmax (finite_values b p) (- flt_max)%R)) end;
  cb_wcs : crpix1 r = option_map comes (crpix1 m) /\ crpix2 r = option_map comes (crpix2 m) /\ crval1 r = option_map comes (crval1 m) /\ crval2 r = option_map comes (crval2 m) /\ cdelt1 r = option_map comes (cdelt1 m) /\ cdelt2 r = option_map comes (cdelt2 m);
  cb_equinox : equinox r = comes (equinox m) \/ no_wcs m /\ equinox r = equinox m;
  cb_comments : comments r = (std_comments ++ comments m)%list;
  cb_history : history r = history m;
  cb_custom : exists tail, custom r = (map (fun w => Kw (kw_key w) (comes_value (kw_value w)) (kw_comment w)) (custom m) ++ tail)%list /\
      ((is_integer b /\ undefined p) /\ tail = [blank_keyword b] \/ ~ (is_integer b /\ undefined p) /\ tail = []) }.

Lemma adc_full b bits : is_integer b -> adc_max b bits = full_scale b bits.
Proof.
  intros I. unfold adc_max, full_scale, bitpix_max. destruct (0 <? bits)%Z eqn:E.
  - apply Z.ltb_lt in E. rewrite minus_IZR. f_equal. rewrite <- (Z2Nat.id bits) by lia. rewrite <- pow_powerRZ, <- pow_IZR. reflexivity.
  - destruct I as [->|[->| ->]]; reflexivity.
Qed.
(** ** strings *)
Lemma strip_id l : (forall r, l <> (r ++ [" "%char])%list) -> strip_blanks l = l.
Proof.
  induction l as [|a r IH]; intros N; [reflexivity|]. cbn [strip_blanks]. destruct r as [|a' r'].
  - cbn. destruct (a =? " ")%char eqn:E; auto. apply Ascii.eqb_eq in E. subst. exfalso. apply (N []). reflexivity.
  - rewrite IH; [reflexivity|]. intros q Q. apply (N (a :: q)). rewrite Q. reflexivity.
Qed.
Lemma string_app_list a b : list_ascii_of_string (a ++ b) = (list_ascii_of_string a ++ list_ascii_of_string b)%list.
Proof. induction a; cbn; congruence. Qed.
Lemma plain_list n s : plain n s -> (List.length (list_ascii_of_string s) <= n)%nat /\ strip_blanks (list_ascii_of_string s) = list_ascii_of_string s.
Proof.
  intros (L & E). assert (LE : List.length (list_ascii_of_string s) = String.length s) by (clear; induction s; cbn; auto). split; [lia|]. apply strip_id. intros r Q. apply (E (string_of_list_ascii r)).
  rewrite <- (string_of_list_ascii_of_string s), Q. clear. induction r as [|a r IH]; cbn; [reflexivity|]. rewrite IH. reflexivity.
Qed.
Lemma stored_plain s : plain 68 s -> stored_string s = s.
Proof. intros P. apply plain_list in P. destruct P as (L & E). unfold stored_string. rewrite firstn_all2 by auto. rewrite E. apply string_of_list_ascii_of_string. Qed.
Lemma free_plain s : s <> "" -> plain 72 s -> free_text s = [s].
Proof.
  intros N P. apply plain_list in P. destruct P as (L & E). unfold free_text. assert (LE := string_of_list_ascii_of_string s). destruct (list_ascii_of_string s) as [|a l] eqn:Q; [cbn in LE; congruence|].
  cbn [List.length pieces]. rewrite firstn_all2 by auto. rewrite skipn_all2 by auto. destruct (List.length l); cbn [pieces map]; rewrite E, LE; reflexivity.
Qed.
Lemma free_all l : (forall s, In s l -> s <> "" /\ plain 72 s) -> flat_map free_text l = l.
Proof. induction l as [|s r IH]; intros H; cbn; auto. destruct (H s (or_introl eq_refl)). rewrite free_plain by auto. cbn. rewrite IH; auto. intros; apply H; right; auto. Qed.
Lemma filter_all l : (forall s, In s l -> s <> "") -> List.filter not_empty l = l.
Proof. induction l as [|s r IH]; intros H; cbn; auto. unfold not_empty at 1. destruct (s =? "") eqn:E; [apply String.eqb_eq in E; exfalso; apply (H s); cbn; auto|]. cbn. rewrite IH; auto. intros; apply H; right; auto. Qed.

(** ** the header that is written *)
Definition tail_cards (b : Z) (p : picture) (m : meta) : header :=
  ((match datamin m with None => [Key "DATAMIN" (HNum (digits 11 (fold_left Rmin (finite_values b p) flt_max))) "Minimum pixel value"] | Some _ => [] end) ++
   (match datamax m with None => [Key "DATAMAX" (HNum (digits 11 (fold_left Rmax (finite_values b p) (- flt_max)%R))) "Maximum pixel value"] | Some _ => [] end) ++
   (if ((0 <? b)%Z && existsb (fun o => negb (some o)) (pixels p))%bool then [Key "BLANK" (HInt (blank_value b)) "Value representing undefined pixels"] else []))%list.
Definition whole (b : Z) (p : picture) (m : meta) : header := let m' := with_defaults b p m in (header_of b (p_w p) (p_h p) m' ++ tail_cards b p m')%list.
Lemma defaults_custom b p m : custom (with_defaults b p m) = custom m. Proof. unfold with_defaults. destruct (0 <? b)%Z; reflexivity. Qed.
Lemma header_find b w h m k : ~ In k (map kw_key (custom m)) -> find_key (header_of b w h m) k =
  match find_key (create_img b w h) k with Some v => Some v | None => match value_of (lookup (T1 m) k) with Some v => Some v | None => value_of (lookup (T2 m) k) end end.
Proof.
  intros N. unfold header_of. rewrite !find_app. destruct (find_key (create_img b w h) k); auto. rewrite find_flat by apply T1_nodup. destruct (value_of _); auto. rewrite find_flat by apply T2_nodup. destruct (value_of _); auto.
  rewrite find_comments, find_history, find_flat_none; auto. rewrite fst_cust; auto.
Qed.
Lemma find_update h k v c k' : (k' =? k)%string = false -> find_key (update_key h k v c) k' = find_key h k'.
Proof. intros N. induction h as [|[k0 v0 c0|s|s] r IH]; cbn; auto; [rewrite N; auto|]. destruct (k =? k0) eqn:E; cbn; [apply String.eqb_eq in E; subst; rewrite N; auto|rewrite IH; auto]. Qed.
Lemma write_whole b p m h : free_custom m -> ~ In "BLANK" (map kw_key (custom m)) -> write_header b p m = Ok h -> h = whole b p m.
Proof.
  intros F NB W. unfold write_header in W. destruct (pixels p) as [|x0 xs] eqn:EP; [discriminate|]. rewrite <- EP in W. destruct (negb (valid_depth b)); [discriminate|]. cbv zeta in W.
  assert (F' : free_custom (with_defaults b p m)) by (unfold free_custom; rewrite defaults_custom; exact F). rewrite write_metadata_header in W by exact F'. unfold whole. cbv zeta. rewrite <- (defaults_custom b p m) in NB.
  assert (KN : forall k, In k known -> ~ In k (map kw_key (custom (with_defaults b p m)))). { intros k I J. apply in_map_iff in J. destruct J as (x & E & J). apply (proj2 F') in J. subst. apply is_known_in in I. congruence. }
  set (m' := with_defaults b p m) in *. clearbody m'. unfold tail_cards. set (H := header_of b (p_w p) (p_h p) m') in *.
  assert (B : find_key H "BLANK" = None). { unfold H. rewrite header_find by auto. cbn [find_key create_img app map std_comments]. cbn -[T1 T2 lookup]. rewrite !lookup_none; auto. - rewrite T2_keys. destruct (has_wcs m'); cbn; intuition discriminate. - rewrite T1_keys. cbn. intuition discriminate. }
  assert (D1 : datamin m' = None -> find_key H "DATAMIN" = None). { intros E. unfold H. rewrite header_find by (apply KN; cbn; tauto). cbn -[T2 lookup T1]. unfold T1. cbn -[T2]. rewrite E. cbn -[T2]. rewrite lookup_none; auto. rewrite T2_keys. destruct (has_wcs m'); cbn; intuition discriminate. }
  assert (D2 : datamax m' = None -> find_key H "DATAMAX" = None). { intros E. unfold H. rewrite header_find by (apply KN; cbn; tauto). cbn -[T2 lookup T1]. unfold T1. cbn -[T2]. rewrite E. cbn -[T2]. rewrite lookup_none; auto. rewrite T2_keys. destruct (has_wcs m'); cbn; intuition discriminate. }
  injection W as <-. clearbody H. unfold double_key.
  set (BL := ((0 <? b)%Z && existsb (fun o => negb (some o)) (pixels p))%bool). clearbody BL. clear EP.
  destruct (datamin m') as [d1|], (datamax m') as [d2|], BL; cbn [app]; rewrite ?app_nil_r; auto; rewrite ?update_fresh; rewrite ?find_app, ?D1, ?D2, ?B by auto; cbn; auto; rewrite <- ?app_assoc; auto; rewrite ?find_update by reflexivity; auto.
Qed.

(** ** reading it back *)
Lemma spec_has m : first_axis m <-> has_wcs m = true.
Proof.
  unfold first_axis, has_wcs. rewrite !orb_true_iff, negb_true_iff, String.eqb_neq. destruct (crpix1 m), (crval1 m), (cdelt1 m); cbn; intuition congruence.
Qed.
Lemma whole_find b p m k : In k known -> Forall custom_ok (custom m) -> find_key (whole b p m) k =
  match find_key (create_img b (p_w p) (p_h p)) k with Some v => Some v | None => match value_of (lookup (T1 (with_defaults b p m)) k) with Some v => Some v | None => match value_of (lookup (T2 (with_defaults b p m)) k) with Some v => Some v | None => find_key (tail_cards b p (with_defaults b p m)) k end end end.
Proof.
  intros K C. unfold whole. cbv zeta. rewrite find_app, header_find. - destruct (find_key (create_img _ _ _) k); auto. destruct (value_of (lookup (T1 _) k)); auto.
  - rewrite defaults_custom. intros I. apply in_map_iff in I. destruct I as (x & E & I). rewrite Forall_forall in C. destruct (C x I) as (N & _). subst. auto.
Qed.
Lemma comes_float_0 : comes_float 0 = 0%R. Proof. unfold comes_float, to_float, to_double, digits. rewrite !round_0; auto with typeclass_instances. Qed.
Definition reads (b w h : Z) (m : meta) (t H : header) : Prop := forall k, In k known -> find_key H k =
  match find_key (create_img b w h) k with Some v => Some v | None => match value_of (lookup (T1 m) k) with Some v => Some v | None => match value_of (lookup (T2 m) k) with Some v => Some v | None => find_key t k end end end.
Lemma read_str show b w h m t H k s c : reads b w h m t H -> In k known -> find_key (create_img b w h) k = None -> find_key t k = None ->
  (lookup (T1 m) k = Some (snd (str_e k s c)) /\ lookup (T2 m) k = None \/ lookup (T1 m) k = None /\ lookup (T2 m) k = Some (snd (str_e k s c))) -> plain 68 s -> read_string show H k = s.
Proof.
  intros RD K C T L P. unfold read_string. rewrite RD, C, T by auto. destruct L as [(-> & ->)|(-> & ->)]; unfold str_e; cbn [snd value_of]; destruct (s =? "") eqn:E; cbn [value_of]; try (apply String.eqb_eq in E; auto); rewrite stored_plain; auto.
Qed.
Lemma read_num number b w h m t H k x c : reads b w h m t H -> In k known -> find_key (create_img b w h) k = None -> find_key t k = None ->
  (lookup (T1 m) k = Some (snd (opt_e k x c)) /\ lookup (T2 m) k = None \/ lookup (T1 m) k = None /\ lookup (T2 m) k = Some (snd (opt_e k x c))) -> read_double number H k = Ok (option_map comes x).
Proof.
  intros RD K C T L. unfold read_double. rewrite RD, C, T by auto. destruct L as [(-> & ->)|(-> & ->)]; unfold opt_e; cbn [snd value_of]; destruct x; cbn [value_of]; reflexivity.
Qed.
Lemma tail_none b p m k : k <> "DATAMIN" -> k <> "DATAMAX" -> k <> "BLANK" -> find_key (tail_cards b p m) k = None.
Proof.
  intros A B C. apply String.eqb_neq in A, B, C. unfold tail_cards. destruct (datamin m), (datamax m), (_ && _)%bool; cbn; rewrite ?A, ?B, ?C; reflexivity.
Qed.
Lemma lookup2_none m k : has_wcs m = false -> lookup (T2 m) k = None. Proof. intros E. unfold T2. rewrite E. reflexivity. Qed.
Lemma lookup_12 m k : In k ["OBJECT"; "TELESCOP"; "INSTRUME"; "OBSERVER"; "DATE-OBS"; "ORIGIN"; "EXPTIME"; "FILTER"; "BUNIT"; "DATAMIN"; "DATAMAX"; "SATURATE"] -> lookup (T2 m) k = None.
Proof. intros I. apply lookup_none. intros J. apply T2_T1 in J. rewrite T1_keys in J. auto. Qed.
Lemma lookup_21 m k : In k ["CRPIX1"; "CRPIX2"; "CRVAL1"; "CRVAL2"; "CDELT1"; "CDELT2"; "CTYPE1"; "CTYPE2"; "EQUINOX"; "RADESYS"] -> lookup (T1 m) k = None.
Proof. intros I. apply lookup_none. rewrite T1_keys. intros J. cbn in I. repeat (destruct I as [<-|I]; [cbn in J; intuition discriminate|]). contradiction. Qed.
Ltac isin := cbn; repeat (first [left; reflexivity | right]).
Ltac tn := apply tail_none; discriminate.
Lemma read_1 show b p m H k s c : reads b (p_w p) (p_h p) m (tail_cards b p m) H -> In k known -> In k ["OBJECT"; "TELESCOP"; "INSTRUME"; "OBSERVER"; "DATE-OBS"; "ORIGIN"; "FILTER"; "BUNIT"] ->
  lookup (T1 m) k = Some (snd (str_e k s c)) -> plain 68 s -> read_string show H k = s.
Proof.
  intros RD K I L P. eapply read_str; eauto.
  - eapply T1_h0 with (m := m). rewrite T1_keys. clear - I. cbn in *. intuition.
  - clear - I. apply tail_none; intros ->; cbn in I; intuition discriminate.
  - left. split; eauto. apply lookup_12. clear - I. cbn in *. intuition.
Qed.
Lemma read_2 b p m H k : reads b (p_w p) (p_h p) m (tail_cards b p m) H -> In k known -> In k ["CRPIX1"; "CRPIX2"; "CRVAL1"; "CRVAL2"; "CDELT1"; "CDELT2"; "CTYPE1"; "CTYPE2"; "EQUINOX"; "RADESYS"] ->
  find_key H k = value_of (lookup (T2 m) k).
Proof.
  intros RD K I. rewrite RD by auto. rewrite lookup_21 by auto. cbn [value_of]. replace (find_key (create_img _ _ _) k) with (@None hval) by (symmetry; cbn in I; repeat (destruct I as [<-|I]; [reflexivity|]); contradiction).
  rewrite tail_none by (intros ->; clear - I; cbn in I; intuition discriminate). destruct (value_of _); auto.
Qed.
Lemma flat_known H T : (forall k, In k (map fst T) -> In k known) -> flat_map (read_custom H) (flat_map cardof T) = [].
Proof.
  induction T as [|[k [[v c]|]] r IH]; cbn -[known]; intros K; auto.
  rewrite (proj2 (is_known_in k)) by (apply K; auto). rewrite orb_true_r. cbn. apply IH. intros; apply K; auto.
Qed.
Lemma flat_texts H {A} (C : A -> card) l : (forall a, exists s, C a = Comment s \/ C a = History s) -> flat_map (read_custom H) (map C l) = [].
Proof. intros E. induction l as [|a r IH]; cbn; auto. destruct (E a) as (s & [Q|Q]); rewrite Q; auto. Qed.
Lemma flat_cust H l : Forall custom_ok l -> (forall w, In w l -> find_key H (kw_key w) = Some (stored_custom (kw_value w))) ->
  flat_map (read_custom H) (flat_map cardof (map cust_e l)) = map (fun w => Kw (kw_key w) (comes_value (kw_value w)) (kw_comment w)) l.
Proof.
  induction 1 as [|w r (N & NE & _ & _ & _ & _ & S) _ IH]; intros F; cbn [map flat_map]; auto. rewrite flat_map_app. rewrite IH by (intros; apply F; right; auto). clear IH. specialize (F w (or_introl eq_refl)).
  assert (K : is_known (kw_key w) = false) by (destruct (is_known (kw_key w)) eqn:E; auto; apply is_known_in in E; contradiction). apply String.eqb_neq in NE.
  unfold cardof, cust_e; cbn [fst snd]. destruct (kw_value w) as [s|x|z|q] eqn:V; cbn [stored_custom] in F.
  - destruct (S s eq_refl) as (SN & P). destruct s as [|a s]; [congruence|]. cbn [flat_map read_custom stored_custom]. rewrite NE, K. cbn [orb app]. rewrite F. rewrite stored_plain by auto. reflexivity.
  - cbn [flat_map read_custom stored_custom]. rewrite NE, K. cbn [orb app]. rewrite F. reflexivity.
  - cbn [flat_map read_custom stored_custom]. rewrite NE, K. cbn [orb app]. rewrite F. reflexivity.
  - cbn [flat_map read_custom stored_custom]. rewrite NE, K. cbn [orb app]. rewrite F. reflexivity.
Qed.
Lemma cust_lookup l w : NoDup (map kw_key l) -> Forall custom_ok l -> In w l -> find_key (flat_map cardof (map cust_e l)) (kw_key w) = Some (stored_custom (kw_value w)).
Proof.
  intros N C I. rewrite find_flat by (rewrite fst_cust; auto). induction l as [|a r IH]; [contradiction|]. inversion N as [|? ? NI N']; subst. inversion C as [|? ? (_ & _ & _ & _ & _ & _ & S) C']; subst. cbn [map lookup]. change (fst (cust_e a)) with (kw_key a). destruct (kw_key w =? kw_key a) eqn:E.
  - apply String.eqb_eq in E. destruct I as [->|I]; [|exfalso; apply NI; rewrite <- E; apply in_map; auto]. unfold cust_e; cbn [snd]. destruct (kw_value w) as [s|x|z|q] eqn:V; try reflexivity. destruct s; [destruct (S "" eq_refl); congruence|reflexivity].
  - destruct I as [->|I]; [rewrite String.eqb_refl in E; discriminate|]. auto.
Qed.
Lemma read_all number show b p m h : carried m -> write_header b p m = Ok h -> exists r, read_metadata number show h = Ok r /\ comes_back b p m r.
Proof.
  intros (PT & EX & RN & WC & CH & ND & CO) W.
  assert (F : free_custom m). { split; auto. intros w I. rewrite Forall_forall in CO. destruct (CO w I) as (N & _). destruct (is_known (kw_key w)) eqn:E; auto. apply is_known_in in E. contradiction. }
  assert (NB : ~ In "BLANK" (map kw_key (custom m))). { intros I. apply in_map_iff in I. destruct I as (x & E & I). rewrite Forall_forall in CO. destruct (CO x I) as (_ & _ & N & _). congruence. }
  assert (VD : b = 8%Z \/ b = 16%Z \/ b = 32%Z \/ b = (-32)%Z \/ b = (-64)%Z). { unfold write_header in W. destruct (pixels p); [discriminate|]. destruct (valid_depth b) eqn:E; [|discriminate]. cbn in E. rewrite !orb_true_iff, !Z.eqb_eq in E. intuition congruence. }
  assert (IB : (0 <? b)%Z = true <-> is_integer b). { unfold is_integer. rewrite Z.ltb_lt. intuition subst; try lia; auto. }
  apply write_whole in W; auto. subst h.
  assert (RD : reads b (p_w p) (p_h p) (with_defaults b p m) (tail_cards b p (with_defaults b p m)) (whole b p m)) by (intros k K; apply whole_find; auto).
  assert (CU : flat_map (read_custom (whole b p m)) (whole b p m) = (map (fun w => Kw (kw_key w) (comes_value (kw_value w)) (kw_comment w)) (custom m) ++ flat_map (read_custom (whole b p m)) (tail_cards b p (with_defaults b p m)))%list).
  { unfold whole at 2. cbv zeta. unfold header_of. rewrite !flat_map_app. rewrite (flat_known _ (T1 _)) by apply T1_known. rewrite (flat_known _ (T2 _)) by apply T2_known.
    rewrite (flat_texts _ Comment), (flat_texts _ History) by (intros a; exists a; auto). rewrite defaults_custom, flat_cust; auto.
    intros w I. unfold whole. cbv zeta. unfold header_of. rewrite !find_app, defaults_custom, cust_lookup by auto. assert (NK : ~ In (kw_key w) known) by (rewrite Forall_forall in CO; apply CO; auto).
    rewrite none_known by auto. rewrite !find_flat_none by (intros Q; apply NK; eauto using T1_known, T2_known). rewrite find_comments, find_history. reflexivity. }
  assert (CM : read_comments (whole b p m) = (std_comments ++ comments m)%list /\ read_history (whole b p m) = history m).
  { assert (X : forall f : string -> bool -> list string, flat_map (fun c => match c with Key _ _ _ => [] | Comment s => f s true | History s => f s false end) (whole b p m) =
        (flat_map (fun s => f s true) (std_comments ++ comments m) ++ flat_map (fun s => f s false) (history m))%list).
    { intros f. unfold whole. cbv zeta. unfold header_of. rewrite !flat_map_app. set (g := fun c => match c with Key _ _ _ => [] | Comment s => f s true | History s => f s false end).
      assert (G0 : forall T, flat_map g (flat_map cardof T) = []) by (induction T as [|[k [[v c]|]] r IH]; cbn; auto). rewrite !G0.
      assert (G1 : forall l, flat_map g (map Comment l) = flat_map (fun s => f s true) l) by (induction l; cbn; congruence).
      assert (G2 : forall l, flat_map g (map History l) = flat_map (fun s => f s false) l) by (induction l; cbn; congruence).
      assert (GT : flat_map g (tail_cards b p (with_defaults b p m)) = []) by (unfold tail_cards; destruct (datamin _), (datamax _), (_ && _)%bool; reflexivity). rewrite GT, G1, G2.
      replace (comments (with_defaults b p m)) with (comments m) by (unfold with_defaults; destruct (0 <? b)%Z; reflexivity). replace (history (with_defaults b p m)) with (history m) by (unfold with_defaults; destruct (0 <? b)%Z; reflexivity).
      rewrite !free_all by (intros; apply CH, in_or_app; auto). unfold create_img. rewrite flat_map_app, G1. cbn [flat_map g app]. rewrite !app_nil_r, <- !app_assoc. reflexivity. }
    assert (ID : forall l : list string, flat_map (fun s => [s]) l = l) by (induction l; cbn; congruence). assert (NI : forall l : list string, flat_map (fun s => @nil string) l = []) by (induction l; cbn; congruence).
    unfold read_comments, read_history. split.
    - rewrite (X (fun s q => if q : bool then [s] else [])). rewrite ID, NI, app_nil_r. apply filter_all. intros s I. apply in_app_iff in I. destruct I as [I|I]; [cbn in I; destruct I as [<-|[<-|[]]]; discriminate|]. apply CH, in_or_app; auto.
    - rewrite (X (fun s q => if q : bool then [] else [s])). rewrite ID, NI. apply filter_all. intros s I. apply CH, in_or_app; auto. }
  destruct CM as (CM & HI).
  assert (TL : flat_map (read_custom (whole b p m)) (tail_cards b p (with_defaults b p m)) = if ((0 <? b)%Z && existsb (fun o => negb (some o)) (pixels p))%bool then [blank_keyword b] else []).
  { assert (BF : ((0 <? b)%Z && existsb (fun o => negb (some o)) (pixels p))%bool = true -> find_key (whole b p m) "BLANK" = Some (HInt (blank_value b))).
    { intros E. unfold whole. cbv zeta. unfold header_of. rewrite !find_app. rewrite none_known by (cbn; intuition discriminate). rewrite !find_flat_none.
      - rewrite find_comments, find_history. unfold tail_cards. rewrite E. rewrite !find_app. destruct (datamin _), (datamax _); reflexivity.
      - rewrite fst_cust, defaults_custom. auto.
      - intros Q. apply T2_known in Q. cbn in Q. intuition discriminate.
      - intros Q. apply T1_known in Q. cbn in Q. intuition discriminate. }
    unfold tail_cards. rewrite !flat_map_app. destruct ((0 <? b)%Z && existsb (fun o => negb (some o)) (pixels p))%bool.
    - cbn [flat_map read_custom]. rewrite BF by auto. destruct (datamin _), (datamax _); reflexivity.
    - destruct (datamin _), (datamax _); reflexivity. }
  assert (UN : existsb (fun o => negb (some o)) (pixels p) = true <-> undefined p). { rewrite existsb_exists. unfold undefined. split; [intros ([x|] & I & E); [discriminate|auto]|intros I; exists None; auto]. }
  assert (HW : has_wcs (with_defaults b p m) = has_wcs m) by (unfold with_defaults; destruct (0 <? b)%Z; reflexivity).
  set (H := whole b p m) in *. clearbody H. unfold texts in PT. repeat match goal with P : Forall _ (_ :: _) |- _ => inversion P; subst; clear P end.
  assert (BP : plain 68 (bunit (with_defaults b p m))). { unfold with_defaults. destruct (0 <? b)%Z; auto. cbn [bunit]. destruct (bunit m =? ""); auto. split; [cbn; lia|]. intros r Q. apply (f_equal list_ascii_of_string) in Q. rewrite string_app_list in Q. cbn in Q. destruct (list_ascii_of_string r) as [|a1 [|a2 [|a3 [|a4 l]]]]; cbn in Q; congruence. }
  assert (SM : forall f : meta -> string, In f [object; telescop; instrume; observer; date_obs; origin; filter; ctype1; ctype2; radesys] -> f (with_defaults b p m) = f m).
  { intros f I. cbn in I. unfold with_defaults. destruct (0 <? b)%Z; auto. repeat (destruct I as [<-|I]; [reflexivity|]). contradiction. }
  assert (OM : forall f : meta -> option R, In f [datamin; datamax; crpix1; crpix2; crval1; crval2; cdelt1; cdelt2] -> f (with_defaults b p m) = f m).
  { intros f I. cbn in I. unfold with_defaults. destruct (0 <? b)%Z; auto. repeat (destruct I as [<-|I]; [reflexivity|]). contradiction. }
  assert (NM : exptime (with_defaults b p m) = exptime m /\ equinox (with_defaults b p m) = equinox m) by (unfold with_defaults; destruct (0 <? b)%Z; auto). destruct NM as (NM1 & NM2).
  assert (S1 : forall k (f : meta -> string) c, In k known -> In k ["OBJECT"; "TELESCOP"; "INSTRUME"; "OBSERVER"; "DATE-OBS"; "ORIGIN"; "FILTER"; "BUNIT"] -> In f [object; telescop; instrume; observer; date_obs; origin; filter; ctype1; ctype2; radesys] ->
    lookup (T1 (with_defaults b p m)) k = Some (snd (str_e k (f (with_defaults b p m)) c)) -> plain 68 (f m) -> read_string show H k = f m).
  { intros k f c K I J L P. rewrite <- (SM f) by auto. eapply read_1; eauto. rewrite SM; auto. }
  assert (S2 : forall k (f : meta -> string) c, In k known -> In k ["CRPIX1"; "CRPIX2"; "CRVAL1"; "CRVAL2"; "CDELT1"; "CDELT2"; "CTYPE1"; "CTYPE2"; "EQUINOX"; "RADESYS"] -> In f [object; telescop; instrume; observer; date_obs; origin; filter; ctype1; ctype2; radesys] ->
    has_wcs m = true -> (has_wcs (with_defaults b p m) = true -> lookup (T2 (with_defaults b p m)) k = Some (snd (str_e k (f (with_defaults b p m)) c))) -> plain 68 (f m) -> read_string show H k = f m).
  { intros k f c K I J W L P. unfold read_string. rewrite (read_2 b p _ H k RD K I). rewrite HW in L. rewrite (L W), SM by auto. unfold str_e; cbn [snd]. destruct (f m =? "") eqn:E; cbn [value_of]; [apply String.eqb_eq in E; auto|rewrite stored_plain; auto]. }
  assert (N2 : forall k (f : meta -> option R) c, In k known -> In k ["CRPIX1"; "CRPIX2"; "CRVAL1"; "CRVAL2"; "CDELT1"; "CDELT2"; "CTYPE1"; "CTYPE2"; "EQUINOX"; "RADESYS"] -> In f [datamin; datamax; crpix1; crpix2; crval1; crval2; cdelt1; cdelt2] ->
    (has_wcs (with_defaults b p m) = true -> lookup (T2 (with_defaults b p m)) k = Some (snd (opt_e k (f (with_defaults b p m)) c))) -> (has_wcs m = false -> f m = None) -> read_double number H k = Ok (option_map comes (f m))).
  { intros k f c K I J L P. unfold read_double. rewrite (read_2 b p _ H k RD K I). rewrite HW in L. destruct (has_wcs m) eqn:W.
    - rewrite L, OM by auto. unfold opt_e; cbn [snd]. destruct (f m); reflexivity.
    - rewrite lookup2_none by (rewrite HW; auto). rewrite P by auto. reflexivity. }
  assert (Z2 : forall k, In k known -> In k ["CRPIX1"; "CRPIX2"; "CRVAL1"; "CRVAL2"; "CDELT1"; "CDELT2"; "CTYPE1"; "CTYPE2"; "EQUINOX"; "RADESYS"] -> has_wcs m = false -> find_key H k = None).
  { intros k K I W. rewrite (read_2 b p _ H k RD K I). rewrite lookup2_none by (rewrite HW; auto). reflexivity. }
  assert (NW : has_wcs m = false -> no_wcs m). { intros W. destruct WC as [A|A]; auto. apply spec_has in A. congruence. }
  Ltac s1 S1 := first [eapply S1; [isin|isin|isin|reflexivity|assumption]].
  assert (R1 : read_string show H "OBJECT" = object m) by s1 S1. assert (R2 : read_string show H "TELESCOP" = telescop m) by s1 S1. assert (R3 : read_string show H "INSTRUME" = instrume m) by s1 S1.
  assert (R4 : read_string show H "OBSERVER" = observer m) by s1 S1. assert (R5 : read_string show H "DATE-OBS" = date_obs m) by s1 S1. assert (R6 : read_string show H "ORIGIN" = origin m) by s1 S1. assert (R7 : read_string show H "FILTER" = filter m) by s1 S1.
  assert (R8 : read_string show H "BUNIT" = bunit (with_defaults b p m)) by (eapply read_1; [exact RD|isin|isin|reflexivity|assumption]).
  Ltac n2 N2 NW := eapply N2; [isin|isin|isin|let W := fresh in intros W; unfold T2; rewrite W; reflexivity|let W := fresh in intros W; apply NW, W].
  assert (D1 : read_double number H "CRPIX1" = Ok (option_map comes (crpix1 m))) by n2 N2 NW. assert (D2 : read_double number H "CRPIX2" = Ok (option_map comes (crpix2 m))) by n2 N2 NW.
  assert (D3 : read_double number H "CRVAL1" = Ok (option_map comes (crval1 m))) by n2 N2 NW. assert (D4 : read_double number H "CRVAL2" = Ok (option_map comes (crval2 m))) by n2 N2 NW.
  assert (D5 : read_double number H "CDELT1" = Ok (option_map comes (cdelt1 m))) by n2 N2 NW. assert (D6 : read_double number H "CDELT2" = Ok (option_map comes (cdelt2 m))) by n2 N2 NW.
  assert (DS : read_double number H "SATURATE" = Ok (option_map comes (saturate (with_defaults b p m)))) by (eapply read_num; [exact RD|isin|reflexivity|tn|left; split; [reflexivity|apply lookup_12; isin]]).
  assert (C1 : read_string show H "CTYPE1" = ctype1 m /\ read_string show H "CTYPE2" = ctype2 m /\ (if (read_string show H "RADESYS" =? "")%string then "ICRS" else read_string show H "RADESYS") = radesys m).
  { destruct (has_wcs m) eqn:W.
    - assert (E1 : read_string show H "CTYPE1" = ctype1 m) by (eapply S2; [isin|isin|isin|auto|intros W'; unfold T2; rewrite W'; reflexivity|assumption]).
      assert (E2 : read_string show H "CTYPE2" = ctype2 m) by (eapply S2; [isin|isin|isin|auto|intros W'; unfold T2; rewrite W'; reflexivity|assumption]).
      assert (E3 : read_string show H "RADESYS" = radesys m) by (eapply S2; [isin|isin|isin|auto|intros W'; unfold T2; rewrite W'; reflexivity|assumption]).
      rewrite E3. split; [auto|split; [auto|]]. destruct (radesys m =? "") eqn:E; auto. apply String.eqb_eq in E. contradiction.
    - destruct (NW eq_refl) as (_ & _ & _ & _ & _ & _ & Q1 & Q2 & _ & Q3). unfold read_string. rewrite !Z2 by (auto; isin). rewrite Q1, Q2, Q3. auto. }
  destruct C1 as (C1 & C2 & C3).
  assert (EQ : exists o, read_double number H "EQUINOX" = Ok o /\ (match o with Some e => e | None => 2000%R end = comes (equinox m) \/ no_wcs m /\ match o with Some e => e | None => 2000%R end = equinox m)).
  { unfold read_double. destruct (has_wcs m) eqn:W.
    - rewrite (read_2 b p _ H "EQUINOX" RD) by isin. unfold T2. rewrite HW. rewrite <- NM2. cbn -[comes to_double digits]. eexists; split; [reflexivity|]. left. reflexivity.
    - rewrite Z2 by (auto; isin). exists None. split; auto. right. split; auto. destruct (NW eq_refl) as (_ & _ & _ & _ & _ & _ & _ & _ & Q & _). auto. }
  destruct EQ as (eo & EQ & EV).
  assert (XT : read_float number H "EXPTIME" = Ok (comes_float (exptime m))).
  { unfold read_float. rewrite RD by isin. rewrite (lookup_12 _ "EXPTIME") by isin. rewrite tail_none by discriminate. change (find_key (create_img b (p_w p) (p_h p)) "EXPTIME") with (@None hval). unfold T1. cbn -[comes_float to_float to_double digits Rlt_dec]. rewrite NM1. destruct (Rlt_dec 0 (exptime m)); cbn [value_of as_number]; [reflexivity|]. replace (exptime m) with 0%R by lra. rewrite comes_float_0. reflexivity. }
  assert (DN : read_double number H "DATAMIN" = Ok (Some (comes (match datamin m with Some x => x | None => fold_left Rmin (finite_values b p) flt_max end)))).
  { unfold read_double. rewrite RD by isin. rewrite (lookup_12 _ "DATAMIN") by isin. change (find_key (create_img b (p_w p) (p_h p)) "DATAMIN") with (@None hval). unfold T1, tail_cards. rewrite (OM datamin), (OM datamax) by isin. destruct (datamin m); reflexivity. }
  assert (DX : read_double number H "DATAMAX" = Ok (Some (comes (match datamax m with Some x => x | None => fold_left Rmax (finite_values b p) (- flt_max)%R end)))).
  { unfold read_double. rewrite RD by isin. rewrite (lookup_12 _ "DATAMAX") by isin. change (find_key (create_img b (p_w p) (p_h p)) "DATAMAX") with (@None hval). unfold T1, tail_cards. rewrite (OM datamin), (OM datamax) by isin. destruct (datamax m); [reflexivity|]. destruct (datamin m); reflexivity. }
  unfold read_metadata. rewrite XT, DN, DX, DS, D1, D2, D3, D4, D5, D6, EQ. cbn [obind]. eexists. split; [reflexivity|]. constructor; cbn [object telescop instrume observer date_obs origin exptime filter bunit datamin datamax saturate crpix1 crpix2 crval1 crval2 cdelt1 cdelt2 ctype1 ctype2 equinox radesys comments history custom].
  - rewrite R1, R2, R3, R4, R5, R6, R7, C1, C2, C3. repeat split.
  - reflexivity.
  - rewrite R8. unfold with_defaults. destruct (0 <? b)%Z eqn:E; [|left; split; auto; intros (I & _); apply IB in I; congruence]. cbn [bunit]. destruct (bunit m =? "") eqn:Q.
    + apply String.eqb_eq in Q. right. split; [apply IB; auto|auto].
    + left. split; auto. intros (_ & I). rewrite I in Q. discriminate.
  - unfold with_defaults. destruct (0 <? b)%Z eqn:E; [|left; split; auto; intros (I & _); apply IB in I; congruence]. cbn [saturate]. destruct (saturate m).
    + left. split; auto. intros (_ & I). discriminate.
    + right. assert (IS : is_integer b) by (apply IB; auto). rewrite <- adc_full by auto. auto.
  - destruct (datamin m); reflexivity.
  - destruct (datamax m); reflexivity.
  - repeat split.
  - exact EV.
  - exact CM.
  - exact HI.
  - rewrite CU, TL. eexists. split; [reflexivity|]. destruct (0 <? b)%Z eqn:E, (existsb _ (pixels p)) eqn:Q; cbn [andb]; [left|right|right|right]; (split; [|reflexivity]).
    + split; [apply IB; auto|apply UN; auto].
    + intros (_ & U). apply UN in U. congruence.
    + intros (I & _). apply IB in I. congruence.
    + intros (I & _). apply IB in I. congruence.
Qed.
(** ** numbers *)
Local Instance prec11 : Prec_gt_0 11. Proof. unfold Prec_gt_0. lia. Qed.
Local Instance prec53 : Prec_gt_0 53. Proof. unfold Prec_gt_0. lia. Qed.
Local Instance prec24 : Prec_gt_0 24. Proof. unfold Prec_gt_0. lia. Qed.
Definition decimal11 (d : R) : Prop := exists n e, (Z.abs n < 10 ^ 11)%Z /\ d = (IZR n * powerRZ 10 e)%R.
Lemma decimal_format d : decimal11 d -> generic_format radix10 (FLX_exp 11) d.
Proof.
  intros (n & e & B & ->). apply generic_format_FLX. apply (FLX_spec radix10 11 _ (Float radix10 n e)); [|exact B]. unfold F2R; cbn [Fnum Fexp]. rewrite bpow_powerRZ. reflexivity.
Qed.
Lemma near_pos d x : (0 < d)%R -> generic_format radix10 (FLX_exp 11) d -> (Rabs (x - d) <= d / 1000000000000)%R -> digits 11 x = d.
Proof.
  intros P F N. assert (B10 : bpow radix10 (- (11)) = (/ 100000000000)%R) by (cbn; lra).
  assert (S := succ_eq_pos radix10 (FLX_exp 11) d (Rlt_le _ _ P)). assert (U := ulp_FLX_ge radix10 11 d). rewrite B10, Rabs_pos_eq in U by lra.
  assert (Q := pred_plus_ulp radix10 (FLX_exp 11) d P F). assert (Q0 := pred_ge_0 radix10 (FLX_exp 11) d P F). assert (V := ulp_FLX_ge radix10 11 (pred radix10 (FLX_exp 11) d)). rewrite B10, Rabs_pos_eq in V by lra.
  apply Rabs_le_inv in N. unfold digits. apply Rle_antisym.
  - apply round_N_le_midp; auto with typeclass_instances. lra.
  - apply round_N_ge_midp; auto with typeclass_instances. lra.
Qed.
Lemma near_decimal d x : decimal11 d -> (Rabs (x - d) <= Rabs d / 1000000000000)%R -> digits 11 x = d.
Proof.
  intros D N. assert (F := decimal_format d D). destruct (Rtotal_order d 0) as [L|[E|G]].
  - rewrite (Rabs_left d) in N by auto. apply generic_format_opp in F. assert (X : digits 11 (- x) = (- d)%R). { apply near_pos; auto; [lra|]. replace (- x - - d)%R with (- (x - d))%R by ring. rewrite Rabs_Ropp. exact N. }
    unfold digits in *. rewrite round_NE_opp in X. lra.
  - subst. rewrite Rabs_R0 in N. replace x with 0%R by (apply Rabs_le_inv in N; lra). unfold digits. apply round_0; auto with typeclass_instances.
  - rewrite (Rabs_pos_eq d) in N by lra. apply near_pos; auto.
Qed.
Definition normal (x : R) : Prop := (powerRZ 2 (-1021) <= Rabs x)%R.
Lemma double_error x : (powerRZ 2 (-1022) <= Rabs x)%R -> (Rabs (to_double x - x) <= Rabs x / 1000000000000000)%R.
Proof.
  intros N. unfold to_double. eapply Rle_trans; [apply relative_error_N_FLT; [lia|]|]. - rewrite bpow_powerRZ. exact N.
  - replace (/ 2 * bpow radix2 (- (53) + 1))%R with (/ 9007199254740992)%R by (cbn; lra). assert (H := Rabs_pos x). lra.
Qed.
Lemma normal_weaker x : normal x -> (powerRZ 2 (-1022) <= Rabs x)%R.
Proof. unfold normal. replace (-1022)%Z with (-1021 + -1)%Z by lia. rewrite powerRZ_add by lra. change (powerRZ 2 (-1)) with (/ (2 * 1))%R. assert (H := powerRZ_le 2 (-1021)). lra. Qed.
Lemma digits_error x : (Rabs (digits 11 x - x) <= Rabs x / 20000000000)%R.
Proof. unfold digits. eapply Rle_trans; [apply relative_error_N_FLX; lia|]. replace (/ 2 * bpow radix10 (- (11) + 1))%R with (/ 20000000000)%R by (cbn; lra). lra. Qed.
Lemma half_normal x y : normal x -> (Rabs (y - x) <= Rabs x / 2)%R -> (powerRZ 2 (-1022) <= Rabs y)%R.
Proof. intros N E. unfold normal in N. replace (-1022)%Z with (-1021 + -1)%Z by lia. rewrite powerRZ_add by lra. change (powerRZ 2 (-1)) with (/ (2 * 1))%R. assert (T := Rabs_triang_inv x y). rewrite Rabs_minus_sym in E. lra. Qed.

(* a double survives to one part in ten thousand million; a double that is the nearest one to a decimal of at most 11 digits, exactly *)
Theorem C148_numbers : (forall x, normal x -> (Rabs (comes x - x) <= Rabs x * / 10 ^ 10)%R) /\ (forall d, decimal11 d -> normal d -> comes (to_double d) = to_double d).
Proof.
  split.
  - intros x N. assert (H := Rabs_pos x). unfold comes. assert (E := digits_error x). assert (D := double_error (digits 11 x) (half_normal x (digits 11 x) N ltac:(lra))).
    replace (to_double (digits 11 x) - x)%R with ((to_double (digits 11 x) - digits 11 x) + (digits 11 x - x))%R by ring. eapply Rle_trans; [apply Rabs_triang|].
    assert (T := Rabs_triang (digits 11 x - x) x). replace (digits 11 x - x + x)%R with (digits 11 x) in T by ring. replace (/ 10 ^ 10)%R with (/ 10000000000)%R by lra. lra.
  - intros d D N. unfold comes. f_equal. apply near_decimal; auto. eapply Rle_trans; [apply double_error, normal_weaker, N|]. assert (H := Rabs_pos d). lra.
Qed.
(* the exposure time to one part in a million *)
Theorem C148_exptime : forall x, (powerRZ 2 (-100) <= x)%R -> (Rabs (comes_float x - x) <= x * / 10 ^ 6)%R.
Proof.
  intros x N. assert (P : (0 < powerRZ 2 (-100))%R) by (apply powerRZ_lt; lra). unfold comes_float. assert (E : (Rabs (digits 7 x - x) <= x / 2000000)%R).
  { unfold digits. eapply Rle_trans; [apply relative_error_N_FLX; lia|]. replace (/ 2 * bpow radix10 (- (7) + 1))%R with (/ 2000000)%R by (cbn; lra). rewrite Rabs_pos_eq by lra. lra. }
  assert (PW : (powerRZ 2 (-1022) <= / 4 * powerRZ 2 (-100) /\ powerRZ 2 (-126) <= / 4 * powerRZ 2 (-100))%R).
  { assert (Q : (/ 4 * powerRZ 2 (-100) = bpow radix2 (-102))%R) by (change (powerRZ 2 (-100)) with (powerRZ (IZR radix2) (-100)); rewrite <- bpow_powerRZ; replace (/ 4)%R with (bpow radix2 (-2)) by (cbn; lra); rewrite <- bpow_plus; reflexivity). rewrite Q. change (powerRZ 2 (-1022)) with (powerRZ (IZR radix2) (-1022)). change (powerRZ 2 (-126)) with (powerRZ (IZR radix2) (-126)). rewrite <- !bpow_powerRZ. split; apply bpow_le; lia. }
  apply Rabs_le_inv in E. set (a := digits 7 x) in *. assert (A : (/ 2 * x <= a)%R) by lra.
  assert (D := double_error a ltac:(rewrite Rabs_pos_eq; lra)). rewrite (Rabs_pos_eq a) in D by lra. apply Rabs_le_inv in D. set (c := to_double a) in *. assert (C : (/ 4 * x <= c)%R) by lra.
  assert (FL : (Rabs (to_float c - c) <= c / 16777216)%R).
  { unfold to_float. eapply Rle_trans; [apply relative_error_N_FLT; [lia|]|]. - rewrite bpow_powerRZ. change (powerRZ (IZR radix2) (-149 + 24 - 1)) with (powerRZ 2 (-126)). rewrite Rabs_pos_eq by lra. lra.
    - replace (/ 2 * bpow radix2 (- (24) + 1))%R with (/ 16777216)%R by (cbn; lra). rewrite Rabs_pos_eq by lra. lra. }
  apply Rabs_le_inv in FL. apply Rabs_le. replace (/ 10 ^ 6)%R with (/ 1000000)%R by lra. split; lra.
Qed.
(* doubles are not kept: 1 + 2^-40 comes back as 1 *)
Theorem C148_refuted_number : exists x, generic_format radix2 (FLT_exp (-1074) 53) x /\ normal x /\ comes x <> x.
Proof.
  exists (1 + / IZR (2 ^ 40))%R. assert (V : (1 + / IZR (2 ^ 40))%R = F2R (Float radix2 (2 ^ 40 + 1) (-40))) by (unfold F2R; cbn; lra). split; [|split].
  - rewrite V. apply generic_format_FLT. apply (FLT_spec radix2 _ 53 _ (Float radix2 (2 ^ 40 + 1) (-40))); [reflexivity|cbn; lia|cbn; lia].
  - unfold normal. rewrite Rabs_pos_eq by (cbn; lra). apply Rle_trans with 1%R; [|cbn; lra]. change (powerRZ 2 (-1021)) with (powerRZ (IZR radix2) (-1021)). rewrite <- bpow_powerRZ. change 1%R with (bpow radix2 0). apply bpow_le. lia.
  - unfold comes. rewrite (near_decimal 1). + unfold to_double. rewrite round_generic; auto with typeclass_instances; [cbn; lra|]. change 1%R with (bpow radix2 0). apply generic_format_bpow. cbn. lia.
    + exists 1%Z, 0%Z. split; [lia|]. cbn. lra.
    + rewrite Rabs_R1. rewrite Rabs_pos_eq; cbn; lra.
Qed.
(** ** the theorems *)
(* what is missing for the full claim "the metadata that are read are the metadata that were written": numbers are kept to 11 digits
   (C148_numbers, C148_refuted_number) and the metadata have to be such as the header carries (the refutations below) *)
Theorem C148_round_trip_partial : forall number show b p m h, carried m -> write_header b p m = Ok h -> exists r, read_metadata number show h = Ok r /\ comes_back b p m r.
Proof. intros; eapply read_all; eauto. Qed.
(* writing is refused only for an empty image or an unknown sample format *)
Theorem C148_written : forall b p m, (exists h, write_header b p m = Ok h) <-> pixels p <> [] /\ In b [8; 16; 32; -32; -64]%Z.
Proof.
  intros b p m. unfold write_header. assert (V : valid_depth b = true <-> In b [8; 16; 32; -32; -64]%Z). { unfold valid_depth. rewrite existsb_exists. split; [intros (x & I & E); apply Z.eqb_eq in E; subst; auto|intros I; exists b; split; auto; apply Z.eqb_refl]. }
  destruct (pixels p) as [|x l]; [split; [intros (h & E); discriminate|intros (N & _); congruence]|]. destruct (valid_depth b) eqn:E; cbn [negb].
  - split; [intros _; split; [discriminate|apply V; auto]|intros _; eexists; reflexivity].
  - split; [intros (h & Q); discriminate|]. intros (_ & I). apply V in I. discriminate.
Qed.
(* no name stands twice in the header, whatever the metadata and the custom keywords *)
Definition names (h : header) : list string := flat_map (fun c => match c with Key k _ _ => [k] | _ => [] end) h.
Lemma names_update h k v c : NoDup (names h) -> NoDup (names (update_key h k v c)) /\ (forall x, In x (names (update_key h k v c)) <-> In x (names h) \/ x = k).
Proof.
  induction h as [|[k' v' c'|s|s] r IH]; cbn; intros N; [split; [constructor; auto; constructor|intros; intuition auto]| |auto|auto].
  inversion N as [|? ? NI N']; subst. destruct (k =? k') eqn:E; cbn.
  - apply String.eqb_eq in E. subst. split; [exact N|]. intros x. intuition auto.
  - apply String.eqb_neq in E. destruct (IH N') as (A & B). split; [constructor; auto; rewrite B; intuition congruence|]. intros x. rewrite B. intuition auto.
Qed.
Lemma names_seq l h : Forall (fun f : op => forall h, NoDup (names h) -> NoDup (names (f h))) l -> NoDup (names h) -> NoDup (names (seq l h)).
Proof. unfold seq. intros F. revert h. induction F; intros h N; cbn; auto. Qed.
Lemma names_text {A} (C : A -> card) h l : (forall a, exists s, C a = Comment s \/ C a = History s) -> NoDup (names h) -> NoDup (names (h ++ map C l)%list).
Proof.
  intros E N. unfold names in *. rewrite flat_map_app. replace (flat_map _ (map C l)) with (@nil string); [rewrite app_nil_r; auto|]. induction l as [|a r IH]; cbn; auto. destruct (E a) as (s & [Q|Q]); rewrite Q; auto.
Qed.
Theorem C148_distinct : forall b p m h, write_header b p m = Ok h -> NoDup (names h).
Proof.
  assert (US : forall k s c h, NoDup (names h) -> NoDup (names (string_key k s c h))) by (intros k s c h N; unfold string_key; destruct (s =? ""); auto; apply names_update; auto).
  assert (UO : forall k x c h, NoDup (names h) -> NoDup (names (opt_key k x c h))) by (intros k [x|] c h N; unfold opt_key; auto; apply names_update; auto).
  assert (UC : forall w h, NoDup (names h) -> NoDup (names (custom_key w h))) by (intros w h N; unfold custom_key; destruct (kw_value w); auto; apply names_update; auto).
  assert (WM : forall m h, NoDup (names h) -> NoDup (names (write_metadata m h))).
  { intros m h N. unfold write_metadata. cbv zeta. apply names_seq; [apply Forall_forall; intros f I; apply in_map_iff in I; destruct I as (w & <- & _); auto|]. do 2 (apply names_text; [intros a; exists a; auto|]).
    set (h1 := seq _ h). assert (N1 : NoDup (names h1)). { apply names_seq; auto. repeat constructor; auto. intros h' N'. destruct (Rlt_dec 0 (exptime m)); auto. apply names_update; auto. }
    destruct (has_wcs m); auto. apply names_seq; auto. repeat constructor; auto. intros h' N'. apply names_update; auto. }
  intros b p m h W. unfold write_header in W. destruct (pixels p) as [|x0 xs] eqn:EP; [discriminate|]. rewrite <- EP in W. destruct (negb (valid_depth b)); [discriminate|]. cbv zeta in W. injection W as <-.
  set (h0 := write_metadata _ _). assert (N0 : NoDup (names h0)) by (apply WM; cbn; repeat constructor; cbn; intuition discriminate). clearbody h0.
  set (h1 := match datamin _ with Some _ => _ | None => _ end). assert (N1 : NoDup (names h1)) by (unfold h1; destruct (datamin _); auto; apply names_update; auto). clearbody h1.
  set (h2 := match datamax _ with Some _ => _ | None => _ end). assert (N2 : NoDup (names h2)) by (unfold h2; destruct (datamax _); auto; apply names_update; auto). clearbody h2.
  destruct (_ && _)%bool; auto. apply names_update; auto.
Qed.
(* DATAMIN and DATAMAX, where the caller leaves them open, are the least and the greatest value in the file *)
Theorem C148_range : forall b p, (forall x, In x (finite_values b p) -> - flt_max <= x <= flt_max)%R -> finite_values b p <> [] ->
  let lo := fold_left Rmin (finite_values b p) flt_max in let hi := fold_left Rmax (finite_values b p) (- flt_max)%R in
  In lo (finite_values b p) /\ In hi (finite_values b p) /\ forall x, In x (finite_values b p) -> (lo <= x <= hi)%R.
Proof.
  intros b p B N. cbv zeta. set (l := finite_values b p) in *. clearbody l.
  assert (LO : forall l a, let z := fold_left Rmin l a in (z <= a)%R /\ (forall x, In x l -> (z <= x)%R) /\ (z = a \/ In z l)).
  { clear. induction l as [|y r IH]; intros a; cbn; [split; [lra|split; [intros ? []|auto]]|]. destruct (IH (Rmin a y)) as (P & Q & S). assert (L1 := Rmin_l a y). assert (L2 := Rmin_r a y). split; [lra|]. split; [intros x [<-|I]; [lra|auto]|]. destruct S as [S|S]; auto. rewrite S. unfold Rmin. destruct (Rle_dec a y); auto. }
  assert (HI : forall l a, let z := fold_left Rmax l a in (a <= z)%R /\ (forall x, In x l -> (x <= z)%R) /\ (z = a \/ In z l)).
  { clear. induction l as [|y r IH]; intros a; cbn; [split; [lra|split; [intros ? []|auto]]|]. destruct (IH (Rmax a y)) as (P & Q & S). assert (L1 := Rmax_l a y). assert (L2 := Rmax_r a y). split; [lra|]. split; [intros x [<-|I]; [lra|auto]|]. destruct S as [S|S]; auto. rewrite S. unfold Rmax. destruct (Rle_dec a y); auto. }
  destruct (LO l flt_max) as (A1 & A2 & A3). destruct (HI l (- flt_max)%R) as (B1 & B2 & B3). destruct l as [|y r]; [congruence|]. cbv zeta in *.
  split; [|split; [|intros x I; split; auto]].
  - destruct A3 as [A3|A3]; auto. assert (Y := A2 y (or_introl eq_refl)). assert (Z := B y (or_introl eq_refl)). left. lra.
  - destruct B3 as [B3|B3]; auto. assert (Y := B2 y (or_introl eq_refl)). assert (Z := B y (or_introl eq_refl)). left. lra.
Qed.

(** ** what is not kept *)
(* the second axis, the equinox and the frame, if the first axis says nothing *)
Definition drop_wcs (m : meta) : meta := Meta (object m) (telescop m) (instrume m) (observer m) (date_obs m) (origin m) (exptime m) (filter m) (bunit m) (datamin m) (datamax m) (saturate m)
  None None None None None None "" "" 2000 "ICRS" (comments m) (history m) (custom m).
Lemma plain_lit s n : (String.length s <= n)%nat -> last (list_ascii_of_string s) "a"%char <> " "%char -> plain n s.
Proof. intros L N. split; auto. intros r ->. apply N. rewrite string_app_list. cbn. apply last_last. Qed.
Lemma comes_2000 : comes 2000 = 2000%R.
Proof.
  unfold comes. rewrite (near_decimal 2000).
  - unfold to_double. apply round_generic; auto with typeclass_instances. apply generic_format_FLT. apply (FLT_spec radix2 _ 53 _ (Float radix2 2000 0)); [unfold F2R; cbn; lra|cbn; lia|cbn; lia].
  - exists 2000%Z, 0%Z. split; [lia|]. cbn. lra.
  - replace (2000 - 2000)%R with 0%R by ring. rewrite Rabs_R0, Rabs_pos_eq; lra.
Qed.
Theorem C148_refuted_wcs : forall number show b p m h, carried (drop_wcs m) -> ~ first_axis m -> write_header b p m = Ok h ->
  exists r, read_metadata number show h = Ok r /\ crpix2 r = None /\ crval2 r = None /\ cdelt2 r = None /\ ctype2 r = "" /\ equinox r = 2000%R /\ radesys r = "ICRS".
Proof.
  intros number show b p m h C N W. assert (HW : has_wcs m = false) by (destruct (has_wcs m) eqn:E; auto; exfalso; apply N, spec_has; auto).
  assert (E : write_header b p (drop_wcs m) = write_header b p m).
  { unfold write_header. destruct (pixels p); auto. destruct (negb (valid_depth b)); auto. cbv zeta.
    assert (M : forall h0, write_metadata (with_defaults b p (drop_wcs m)) h0 = write_metadata (with_defaults b p m) h0).
    { intros h0. unfold write_metadata. replace (has_wcs (with_defaults b p (drop_wcs m))) with false by (unfold with_defaults; destruct (0 <? b)%Z; reflexivity). replace (has_wcs (with_defaults b p m)) with false by (unfold with_defaults; destruct (0 <? b)%Z; auto). unfold with_defaults. destruct (0 <? b)%Z; reflexivity. }
    rewrite M. unfold with_defaults. destruct (0 <? b)%Z; reflexivity. }
  rewrite <- E in W. destruct (read_all number show b p (drop_wcs m) h C W) as (r & R & CB). exists r. split; auto. destruct CB as [T _ _ _ _ _ X Q _ _ _]. destruct T as (_ & _ & _ & _ & _ & _ & _ & _ & T1 & T2). destruct X as (_ & X2 & _ & X4 & _ & X6).
  cbn in *. rewrite comes_2000 in Q. repeat split; auto. tauto.
Qed.
(* a file that is read and written again has two comments more, every time *)
Theorem C148_refuted_comments : forall number show b p m h, carried m -> write_header b p m = Ok h -> exists r, read_metadata number show h = Ok r /\ List.length (comments r) = (2 + List.length (comments m))%nat.
Proof. intros number show b p m h C W. destruct (read_all number show b p m h C W) as (r & R & CB). exists r. split; auto. rewrite (cb_comments _ _ _ _ CB), app_length. reflexivity. Qed.
(* an undefined pixel of an integer image leaves a keyword in the metadata that the caller never set *)
Theorem C148_refuted_blank : forall number show b p m h, carried m -> is_integer b -> undefined p -> write_header b p m = Ok h ->
  exists r, read_metadata number show h = Ok r /\ In "BLANK" (map kw_key (custom r)) /\ ~ In "BLANK" (map kw_key (custom m)).
Proof.
  intros number show b p m h C I U W. destruct (read_all number show b p m h C W) as (r & R & CB). exists r. split; auto. split.
  - destruct (cb_custom _ _ _ _ CB) as (t & E & [(_ & ->)|(N & _)]); [|tauto]. rewrite E, map_app. apply in_or_app. right. left. reflexivity.
  - intros J. apply in_map_iff in J. destruct J as (x & E & J). destruct C as (_ & _ & _ & _ & _ & _ & CO). rewrite Forall_forall in CO. destruct (CO x J) as (_ & _ & Q & _). contradiction.
Qed.
Definition blank_meta (kws : list keyword) : meta := Meta "" "" "" "" "" "" 0 "" "" None None None None None None None None None "" "" 2000 "ICRS" [] [] kws.
(* a custom keyword may carry the name of a standard one: with a text where a number is read the file is written and cannot be read *)
Theorem C148_refuted_unreadable : forall number show x, number "long" = None ->
  exists h, write_header (-32) (Pic 1 1 0 [Some x]) (blank_meta [Kw "EXPTIME" (HStr "long") ""]) = Ok h /\ read_metadata number show h = Throws.
Proof.
  intros number show x N. assert (E : exists h, write_header (-32) (Pic 1 1 0 [Some x]) (blank_meta [Kw "EXPTIME" (HStr "long") ""]) = Ok h /\ find_key h "EXPTIME" = Some (HStr "long")).
  { eexists. split; [reflexivity|]. cbn -[digits flt_max Rlt_dec]. destruct (Rlt_dec 0 0); [lra|]. reflexivity. }
  destruct E as (h & W & E). exists h. split; auto. unfold read_metadata, read_float. rewrite E. cbn [as_number obind]. rewrite N. reflexivity.
Qed.
(* and one named NAXIS1 changes the shape that the header gives *)
Theorem C148_refuted_structure : forall x y, exists h, write_header (-32) (Pic 2 1 0 [Some x; Some y]) (blank_meta [Kw "NAXIS1" (HInt 1) ""]) = Ok h /\ find_key h "NAXIS1" = Some (HInt 1) /\ find_key h "NAXIS2" = Some (HInt 1).
Proof. intros x y. eexists. split; [reflexivity|]. cbn -[digits flt_max Rlt_dec]. destruct (Rlt_dec 0 0); [lra|]. cbn. auto. Qed.
(* without any finite pixel DATAMIN is the largest float and DATAMAX its opposite *)
Theorem C148_refuted_range : forall number show, exists h r, write_header (-32) (Pic 1 1 0 [None]) (blank_meta []) = Ok h /\ read_metadata number show h = Ok r /\ exists lo hi, datamin r = Some lo /\ datamax r = Some hi /\ (hi < lo)%R.
Proof.
  intros number show. assert (C : carried (blank_meta [])). { unfold carried, blank_meta; cbn. split; [repeat constructor; try (cbn; lia); try (intros [|? ?]; discriminate)|]. - intros r Q. apply (f_equal list_ascii_of_string) in Q. rewrite string_app_list in Q. cbn in Q. destruct (list_ascii_of_string r) as [|a1 [|a2 [|a3 [|a4 [|a5 l]]]]]; cbn in Q; congruence.
    - split; [lra|]. split; [discriminate|]. split; [right; unfold no_wcs; cbn; tauto|]. split; [intros s []|]. split; constructor. }
  eexists. destruct (read_all number show (-32) (Pic 1 1 0 [None]) (blank_meta []) _ C eq_refl) as (r & R & CB). exists r. split; [reflexivity|]. split; [exact R|].
  assert (M1 := cb_datamin _ _ _ _ CB). assert (M2 := cb_datamax _ _ _ _ CB). cbn -[comes flt_max] in M1, M2. exists (comes flt_max), (comes (- flt_max)). split; auto. split; auto.
  assert (FM : (1 <= flt_max)%R). { unfold flt_max. rewrite <- minus_IZR, <- mult_IZR. apply IZR_le. vm_compute. discriminate. }
  assert (NM : forall x, (1 <= Rabs x)%R -> normal x). { intros x H. unfold normal. apply Rle_trans with 1%R; auto. change (powerRZ 2 (-1021)) with (powerRZ (IZR radix2) (-1021)). rewrite <- bpow_powerRZ. change 1%R with (bpow radix2 0). apply bpow_le. lia. }
  assert (E1 := proj1 C148_numbers flt_max (NM flt_max ltac:(rewrite Rabs_pos_eq; lra))). assert (E2 := proj1 C148_numbers (- flt_max)%R (NM (- flt_max)%R ltac:(rewrite Rabs_Ropp, Rabs_pos_eq; lra))).
  rewrite Rabs_Ropp in E2. rewrite (Rabs_pos_eq flt_max) in E1, E2 by lra. apply Rabs_le_inv in E1, E2. lra.
Qed.

(** ** a case *)
Definition case_meta : meta := Meta "M31" "HST" "" "" "2026-01-01" "huira" (3 / 2) "V" "" None None None (Some 12%R) (Some 8%R) None None None None "RA---TAN" "" 2000 "FK5" ["first light"] ["flat" ; "dark"] [Kw "GAIN" (HNum (5 / 2)) "e-/adu"; Kw "NIGHT" (HInt 3) ""].
Example case_carried : carried case_meta.
Proof.
  unfold carried, case_meta; cbn. split; [repeat constructor; try (cbn; lia); apply plain_lit with (n := 68%nat); cbn; try lia; discriminate|]. split; [lra|]. split; [discriminate|]. split; [left; left; discriminate|]. split.
  - intros s [<-|[<-|[<-|[]]]]; (split; [discriminate|apply plain_lit; cbn; [lia|discriminate]]).
  - split; [repeat constructor; cbn; intuition discriminate|]. repeat constructor; unfold custom_ok; cbn; repeat split; try lia; try discriminate; intuition discriminate.
Qed.
Example case_written : exists h, write_header 16 (Pic 2 1 12 [Some (/ 2)%R; None]) case_meta = Ok h. Proof. eexists. reflexivity. Qed.
Example case_decimal : decimal11 (1 / 10) /\ normal (1 / 10).
Proof. split; [exists 1%Z, (-1)%Z; split; [lia|]; change (powerRZ 10 (-1)) with (/ (10 * 1))%R; field|]. unfold normal. rewrite Rabs_pos_eq by lra. apply Rle_trans with (/ 16)%R; [|lra]. change (powerRZ 2 (-1021)) with (powerRZ (IZR radix2) (-1021)). rewrite <- bpow_powerRZ. replace (/ 16)%R with (bpow radix2 (-4)) by (cbn; lra). apply bpow_le. lia. Qed.
