(* Lemmas about the FITS header model. *)
From Coq Require Import Reals ZArith String Ascii List Bool Lra Lia.
From Flocq Require Import Core.
From Verif Require Import Common FitsHeaderModel.
Import ListNotations.
Open Scope string_scope.

(** ** tables of keys *)
Definition entry := (string * option (hval * string))%type.
Definition put (e : entry) : op := fun h => match snd e with Some (v, c) => update_key h (fst e) v (Some c) | None => h end.
Definition cardof (e : entry) : list card := match snd e with Some (v, c) => [Key (fst e) v c] | None => [] end.
Fixpoint lookup (T : list entry) (k : string) : option (option (hval * string)) := match T with [] => None | e :: r => if (k =? fst e)%string then Some (snd e) else lookup r k end.
Definition value_of (o : option (option (hval * string))) : option hval := match o with Some (Some (v, _)) => Some v | _ => None end.
Lemma find_app (h1 h2 : header) k : find_key (h1 ++ h2)%list k = match find_key h1 k with Some v => Some v | None => find_key h2 k end.
Proof. induction h1 as [|[k' v c|s|s] r IH]; cbn; auto. destruct (k =? k'); auto. Qed.
Lemma update_fresh h k v c : find_key h k = None -> update_key h k v c = (h ++ [Key k v (match c with Some s => s | None => "" end)])%list.
Proof. induction h as [|[k' v' c'|s|s] r IH]; cbn; intros H; [auto| | |]; try (rewrite IH; auto; fail). destruct (k =? k') eqn:E; [discriminate|]. rewrite IH; auto. Qed.
Lemma lookup_none T k : ~ In k (map fst T) -> lookup T k = None.
Proof. induction T as [|[k' o] r IH]; cbn; intros H; auto. destruct (k =? k') eqn:E; [apply String.eqb_eq in E; subst; tauto|apply IH; tauto]. Qed.
Lemma find_flat T k : NoDup (map fst T) -> find_key (flat_map cardof T) k = value_of (lookup T k).
Proof.
  induction T as [|[k' o] r IH]; cbn [map fst flat_map lookup]; intros N; auto. inversion N as [|? ? NI N']; subst. rewrite find_app. unfold cardof at 1; cbn [fst snd]. destruct o as [[v c]|]; cbn [find_key].
  - destruct (k =? k') eqn:E; cbn [snd value_of]; auto.
  - destruct (k =? k') eqn:E; cbn [snd value_of]; auto. apply String.eqb_eq in E. subst. rewrite IH, lookup_none; auto.
Qed.
Lemma find_flat_none T k : ~ In k (map fst T) -> find_key (flat_map cardof T) k = None.
Proof.
  induction T as [|[k' o] r IH]; cbn [map fst flat_map]; intros N; auto. rewrite find_app. unfold cardof at 1; cbn [fst snd]. rewrite IH by (cbn in N; tauto). destruct o as [[v c]|]; cbn [find_key]; auto.
  destruct (k =? k') eqn:E; auto. apply String.eqb_eq in E. subst. cbn in N. tauto.
Qed.
Lemma put_all T : forall h, NoDup (map fst T) -> (forall k, In k (map fst T) -> find_key h k = None) -> seq (map put T) h = (h ++ flat_map cardof T)%list.
Proof.
  induction T as [|[k o] r IH]; intros h N F; cbn [map flat_map seq fold_left]; [rewrite app_nil_r; auto|]. inversion N as [|? ? NI N']; subst. cbn [fst] in *.
  assert (E : put (k, o) h = (h ++ cardof (k, o))%list). { unfold put, cardof; cbn [fst snd]. destruct o as [[v c]|]; [|rewrite app_nil_r; auto]. rewrite update_fresh; auto. apply F. left; auto. }
  unfold seq in IH. rewrite E, IH; auto; [rewrite <- app_assoc; auto|]. intros k' I. rewrite find_app, F by (right; auto). unfold cardof; cbn [fst snd]. destruct o as [[v c]|]; auto. cbn [find_key]. destruct (k' =? k) eqn:Q; auto. apply String.eqb_eq in Q. subst. contradiction.
Qed.
Lemma seq_ext l l' : Forall2 (fun f g => forall h, f h = g h) l l' -> forall h, seq l h = seq l' h.
Proof. unfold seq. induction 1 as [|f g l l' E _ IH]; intros h; cbn; auto. rewrite E. apply IH. Qed.
Lemma find_text {A} (C : A -> card) l k : (forall a, exists s, C a = Comment s \/ C a = History s) -> find_key (map C l) k = None.
Proof. intros H. induction l as [|a r IH]; cbn; auto. destruct (H a) as (s & [E|E]); rewrite E; auto. Qed.
Lemma find_comments l k : find_key (map Comment l) k = None. Proof. apply find_text. intros a. exists a. auto. Qed.
Lemma find_history l k : find_key (map History l) k = None. Proof. apply find_text. intros a. exists a. auto. Qed.

(** ** the header as tables *)
Definition str_e (k s c : string) : entry := (k, if (s =? "")%string then None else Some (HStr (stored_string s), c)).
Definition opt_e (k : string) (x : option R) (c : string) : entry := (k, match x with Some x => Some (HNum (digits 11 x), c) | None => None end).
Definition T1 (m : meta) : list entry :=
  [str_e "OBJECT" (object m) "Target name"; str_e "TELESCOP" (telescop m) "Telescope / system"; str_e "INSTRUME" (instrume m) "Instrument";
   str_e "OBSERVER" (observer m) "Observer / author"; str_e "DATE-OBS" (date_obs m) "Observation date (ISO)"; str_e "ORIGIN" (origin m) "File origin / software";
   ("EXPTIME", if Rlt_dec 0 (exptime m) then Some (HNum (digits 7 (exptime m)), "[s] Exposure time") else None);
   str_e "FILTER" (filter m) "Filter name"; str_e "BUNIT" (bunit m) "Physical unit of pixel values";
   opt_e "DATAMIN" (datamin m) "Minimum pixel value"; opt_e "DATAMAX" (datamax m) "Maximum pixel value"; opt_e "SATURATE" (saturate m) "[adu] Detector saturation level"].
Definition T2 (m : meta) : list entry := if has_wcs m then
  [opt_e "CRPIX1" (crpix1 m) "[pixel] Reference pixel X"; opt_e "CRPIX2" (crpix2 m) "[pixel] Reference pixel Y";
   opt_e "CRVAL1" (crval1 m) "[deg] RA  at ref pixel"; opt_e "CRVAL2" (crval2 m) "[deg] Dec at ref pixel"; opt_e "CDELT1" (cdelt1 m) "[deg/pixel] Plate scale X"; opt_e "CDELT2" (cdelt2 m) "[deg/pixel] Plate scale Y";
   str_e "CTYPE1" (ctype1 m) "Coordinate type axis 1"; str_e "CTYPE2" (ctype2 m) "Coordinate type axis 2";
   ("EQUINOX", Some (HNum (digits 11 (equinox m)), "Equinox of coordinates")); str_e "RADESYS" (radesys m) "Reference frame"] else [].
Definition stored_custom (v : hval) : hval := match v with HStr s => HStr (stored_string s) | HNum x => HNum (digits 11 x) | v => v end.
Definition cust_e (w : keyword) : entry := (kw_key w, match kw_value w with HStr "" => None | v => Some (stored_custom v, kw_comment w) end).
Definition free_custom (m : meta) : Prop := NoDup (map kw_key (custom m)) /\ forall w, In w (custom m) -> is_known (kw_key w) = false.
Lemma is_known_in k : is_known k = true <-> In k known.
Proof. unfold is_known. rewrite existsb_exists. split; [intros (x & I & E); apply String.eqb_eq in E; subst; auto|intros I; exists k; split; auto; apply String.eqb_refl]. Qed.
Lemma T1_keys m : map fst (T1 m) = ["OBJECT"; "TELESCOP"; "INSTRUME"; "OBSERVER"; "DATE-OBS"; "ORIGIN"; "EXPTIME"; "FILTER"; "BUNIT"; "DATAMIN"; "DATAMAX"; "SATURATE"]. Proof. reflexivity. Qed.
Lemma T2_keys m : map fst (T2 m) = if has_wcs m then ["CRPIX1"; "CRPIX2"; "CRVAL1"; "CRVAL2"; "CDELT1"; "CDELT2"; "CTYPE1"; "CTYPE2"; "EQUINOX"; "RADESYS"] else []. Proof. unfold T2. destruct (has_wcs m); reflexivity. Qed.
Ltac nodup := repeat constructor; cbn; intuition discriminate.
Lemma T1_nodup m : NoDup (map fst (T1 m)). Proof. rewrite T1_keys. nodup. Qed.
Lemma T2_nodup m : NoDup (map fst (T2 m)). Proof. rewrite T2_keys. destruct (has_wcs m); nodup. Qed.
Lemma T1_known m k : In k (map fst (T1 m)) -> In k known. Proof. rewrite T1_keys. cbn. intuition. Qed.
Lemma T2_known m k : In k (map fst (T2 m)) -> In k known. Proof. rewrite T2_keys. destruct (has_wcs m); cbn; intuition. Qed.
Lemma create_known b w h k : find_key (create_img b w h) k <> None -> In k known.
Proof. cbn. destruct (k =? "SIMPLE") eqn:E1; [apply String.eqb_eq in E1; subst; auto|]. destruct (k =? "BITPIX") eqn:E2; [apply String.eqb_eq in E2; subst; auto|]. destruct (k =? "NAXIS") eqn:E3; [apply String.eqb_eq in E3; subst; auto|]. destruct (k =? "NAXIS1") eqn:E4; [apply String.eqb_eq in E4; subst; auto 6|]. destruct (k =? "NAXIS2") eqn:E5; [apply String.eqb_eq in E5; subst; auto 8|]. destruct (k =? "EXTEND") eqn:E6; [apply String.eqb_eq in E6; subst; auto 10|]. congruence. Qed.
Lemma str_put k s c h : string_key k s (Some c) h = put (str_e k s c) h.
Proof. unfold string_key, put, str_e; cbn [fst snd]. destruct (s =? ""); auto. Qed.
Lemma opt_put k x c h : opt_key k x c h = put (opt_e k x c) h.
Proof. unfold opt_key, double_key, put, opt_e; cbn [fst snd]. destruct x; auto. Qed.
Lemma cust_fresh w h : find_key h (kw_key w) = None -> custom_key w h = put (cust_e w) h.
Proof.
  intros F. unfold custom_key, cust_e, put; cbn [fst snd]. destruct (kw_value w) as [s|x|z|b]; cbn [stored_custom]; unfold string_key, double_key, int_key, bool_key.
  - destruct s as [|a s]; [reflexivity|]. cbn [String.eqb]. rewrite !update_fresh by auto. destruct (kw_comment w =? "") eqn:E; auto. apply String.eqb_eq in E. rewrite E. auto.
  - rewrite !update_fresh by auto. destruct (kw_comment w =? "") eqn:E; auto. apply String.eqb_eq in E. rewrite E. auto.
  - rewrite !update_fresh by auto. destruct (kw_comment w =? "") eqn:E; auto. apply String.eqb_eq in E. rewrite E. auto.
  - rewrite !update_fresh by auto. destruct (kw_comment w =? "") eqn:E; auto. apply String.eqb_eq in E. rewrite E. auto.
Qed.
Lemma cust_all l : forall h, NoDup (map kw_key l) -> (forall w, In w l -> find_key h (kw_key w) = None) -> seq (map custom_key l) h = (h ++ flat_map cardof (map cust_e l))%list.
Proof.
  induction l as [|w r IH]; intros h N F; cbn [map flat_map seq fold_left]; [rewrite app_nil_r; auto|]. inversion N as [|? ? NI N']; subst.
  assert (E : custom_key w h = (h ++ cardof (cust_e w))%list). { rewrite cust_fresh by (apply F; left; auto). unfold put, cardof. destruct (snd (cust_e w)) as [[v c]|]; [|rewrite app_nil_r; auto]. rewrite update_fresh; auto. apply F. left; auto. }
  unfold seq in IH. rewrite E, IH; auto; [rewrite <- app_assoc; auto|]. intros w' I. rewrite find_app, F by (right; auto). unfold cardof. destruct (snd (cust_e w)) as [[v c]|]; auto. cbn [find_key fst cust_e]. destruct (kw_key w' =? kw_key w) eqn:Q; auto. apply String.eqb_eq in Q. exfalso. apply NI. rewrite <- Q. apply in_map; auto.
Qed.
Definition header_of (b w h : Z) (m : meta) : header :=
  (create_img b w h ++ flat_map cardof (T1 m) ++ flat_map cardof (T2 m) ++ map Comment (flat_map free_text (comments m)) ++ map History (flat_map free_text (history m)) ++ flat_map cardof (map cust_e (custom m)))%list.
Lemma fst_cust l : map fst (map cust_e l) = map kw_key l. Proof. rewrite map_map. reflexivity. Qed.
Lemma none_known b w h k : ~ In k known -> find_key (create_img b w h) k = None.
Proof. intros N. destruct (find_key (create_img b w h) k) eqn:E; auto. exfalso. apply N, (create_known b w h). congruence. Qed.
Ltac lit := cbn; auto.
Lemma T1_h0 m b w h k : In k (map fst (T1 m)) -> find_key (create_img b w h) k = None.
Proof. rewrite T1_keys. cbn [In]. intros H. repeat (destruct H as [<-|H]; [reflexivity|]). contradiction. Qed.
Lemma T2_h0 m b w h k : In k (map fst (T2 m)) -> find_key (create_img b w h) k = None.
Proof. rewrite T2_keys. destruct (has_wcs m); [|intros []]. cbn [In]. intros H. repeat (destruct H as [<-|H]; [reflexivity|]). contradiction. Qed.
Lemma T2_T1 m k : In k (map fst (T2 m)) -> ~ In k (map fst (T1 m)).
Proof. rewrite T1_keys, T2_keys. destruct (has_wcs m); [|intros []]. cbn [In]. intros H. repeat (destruct H as [<-|H]; [intuition discriminate|]). contradiction. Qed.
Lemma write_metadata_header b w h m : free_custom m -> write_metadata m (create_img b w h) = header_of b w h m.
Proof.
  intros (N & K). unfold write_metadata. cbv zeta.
  match goal with |- context [seq ?l (create_img b w h)] => replace (seq l (create_img b w h)) with (create_img b w h ++ flat_map cardof (T1 m))%list end.
  2:{ rewrite <- put_all by (auto using T1_nodup; intros; eapply T1_h0; eauto). symmetry. apply seq_ext. unfold T1. cbn [map]. repeat (apply Forall2_cons; [intros h'; first [apply str_put|apply opt_put|idtac]|]); [|apply Forall2_nil].
      unfold put; cbn [snd fst]. destruct (Rlt_dec 0 (exptime m)); reflexivity. }
  match goal with |- context [if has_wcs m then ?e else ?f] => replace (if has_wcs m then e else f) with ((create_img b w h ++ flat_map cardof (T1 m)) ++ flat_map cardof (T2 m))%list end.
  2:{ rewrite <- put_all; [|apply T2_nodup|]. 2:{ intros k I. rewrite find_app, (T2_h0 m) by auto. apply find_flat_none. apply T2_T1 in I. auto. }
      unfold T2. destruct (has_wcs m); [|reflexivity]. symmetry. apply seq_ext. cbn [map]. repeat (apply Forall2_cons; [intros h'; first [apply str_put|apply opt_put|reflexivity]|]). apply Forall2_nil. }
  rewrite cust_all; auto.
  - unfold header_of. rewrite <- !app_assoc. reflexivity.
  - intros x I. specialize (K x I). assert (NK : ~ In (kw_key x) known) by (intros Q; apply is_known_in in Q; congruence). rewrite !find_app, none_known by auto.
    rewrite !find_flat_none by (intros Q; apply NK; eauto using T1_known, T2_known). rewrite find_comments, find_history. reflexivity.
Qed.
