(* Lemmas about media, shadow rays and the path estimator. *)
From Verif Require Import Common Vec3 SpectralModel SpectralProofs2 MediumStackModel MediumStackSpec MediumStackProofs MediumStackProps PathModel PathSpec.
Open Scope R_scope.

Lemma ch_zip f c a b : (c < List.length a)%nat -> (c < List.length b)%nat -> ch c (zip f a b) = f (ch c a) (ch c b).
Proof.
  unfold zip, ch. revert a b. induction c; intros [|x a] [|y b] Ha Hb; cbn in *; try lia; auto. apply IHc; lia.
Qed.
Lemma ch_map (f : R -> R) c l : (c < List.length l)%nat -> ch c (map f l) = f (ch c l).
Proof. apply nth_map_any. Qed.
Lemma ch_sscale k c l : (c < List.length l)%nat -> ch c (sscale k l) = k * ch c l.
Proof. intros. unfold sscale. rewrite ch_map by auto. reflexivity. Qed.
Lemma ch_fill n x c : (c < n)%nat -> ch c (fill n x) = x.
Proof. unfold ch, fill. intros H. revert c H. induction n; intros [|c] H; cbn; try lia; auto. apply IHn. lia. Qed.
Lemma ch_nonneg c l : nonneg l -> 0 <= ch c l.
Proof. intros H. unfold ch. destruct (nth_in_or_default c l 0) as [I|E]; [apply H, I|rewrite E; lra]. Qed.
Lemma zip_length f a b : List.length a = List.length b -> List.length (zip f a b) = List.length a.
Proof. unfold zip. rewrite map_length, combine_length. lia. Qed.
Lemma smul_length a b : List.length a = List.length b -> List.length (smul a b) = List.length a.
Proof. apply zip_length. Qed.
Lemma sscale_length k a : List.length (sscale k a) = List.length a.
Proof. apply map_length. Qed.
Lemma beer_length e t : List.length (beer e t) = List.length e.
Proof. apply map_length. Qed.
Lemma fill_length n x : List.length (fill n x) = n.
Proof. apply repeat_length. Qed.
Lemma extinction_length n m : medium_ok n m -> List.length (extinction m) = n.
Proof. intros (A & B & _). unfold extinction. rewrite zip_length; lia. Qed.
Lemma ch_extinction n m c : medium_ok n m -> (c < n)%nat -> ch c (extinction m) = sigma m c.
Proof. intros (A & B & _) H. unfold extinction. rewrite ch_zip by lia. reflexivity. Qed.
Lemma ch_beer e t c : (c < List.length e)%nat -> ch c (beer e t) = exp (- ch c e * t).
Proof. intros. unfold beer. rewrite ch_map by auto. reflexivity. Qed.
Lemma sigma_nonneg n m c : medium_ok n m -> 0 <= sigma m c.
Proof. intros (_ & _ & A & B). pose proof (ch_nonneg c _ A). pose proof (ch_nonneg c _ B). unfold sigma. lra. Qed.
Lemma ch_transmittance n m t c : medium_ok n m -> (c < n)%nat -> 0 <= t -> ch c (evaluate_transmittance m t) = exp (- sigma m c * t).
Proof.
  intros H Hc Ht. unfold evaluate_transmittance. rewrite (extinction_length n m H). destruct (Rleb t 0) eqn:E.
  - apply Rleb_true in E. replace t with 0 by lra. rewrite Rmult_0_r, exp_0. apply ch_fill, Hc.
  - rewrite ch_beer by (rewrite (extinction_length n m H); auto). rewrite (ch_extinction n) by auto. reflexivity.
Qed.
Lemma transmittance_length n m t : medium_ok n m -> List.length (evaluate_transmittance m t) = n.
Proof. intros H. unfold evaluate_transmittance. destruct (Rleb t 0); [rewrite fill_length|rewrite beer_length]; apply (extinction_length n m H). Qed.

Lemma vmax_ge l x : In x l -> x <= vmax l.
Proof.
  destruct l as [|a l]; [intros []|]. cbn [vmax]. 
  assert (G: forall l m, m <= fold_left (fun m y => if Rltb m y then y else m) l m /\ forall y, In y l -> y <= fold_left (fun m y => if Rltb m y then y else m) l m).
  { induction l0 as [|b l0 IH]; intros m; cbn; [split; [lra|intros ? []]|]. destruct (IH (if Rltb m b then b else m)) as [A B].
    destruct (Rltb m b) eqn:E; rb; split; try lra; intros y [<-|I]; try lra; apply B; auto. }
  intros [<-|I]; [exact (proj1 (G l a))|exact (proj2 (G l a) x I)].
Qed.
Lemma vmax_in l : l <> [] -> In (vmax l) l.
Proof.
  destruct l as [|a l]; [intros []; reflexivity|]. intros _. cbn [vmax]. revert a. induction l as [|b l IH]; intros a; cbn; [auto|].
  destruct (Rltb a b); destruct (IH b) as [E|I]; destruct (IH a) as [E'|I']; auto.
Qed.
Lemma vmax_nonneg l : nonneg l -> 0 <= vmax l.
Proof. intros H. destruct l as [|a l]; [cbn; lra|]. apply H, vmax_in. discriminate. Qed.
Lemma vmax_zero l c : nonneg l -> vmax l <= 0 -> ch c l = 0.
Proof.
  intros H V. pose proof (ch_nonneg c l H). unfold ch in *. destruct (nth_in_or_default c l 0) as [I|E]; [|auto].
  pose proof (vmax_ge l _ I). lra.
Qed.

(** non-negativity *)
Lemma nonneg_map (f : R -> R) l : (forall x, In x l -> 0 <= x -> 0 <= f x) -> nonneg l -> nonneg (map f l).
Proof. intros F H x I. apply in_map_iff in I. destruct I as (y & <- & I). apply F; auto. Qed.
Lemma nonneg_zip f a b : (forall x y, 0 <= x -> 0 <= y -> 0 <= f x y) -> nonneg a -> nonneg b -> nonneg (zip f a b).
Proof. intros F A B x I. unfold zip in I. apply in_map_iff in I. destruct I as ([y z] & <- & I). cbn. apply F; [apply A; eapply in_combine_l; eauto|apply B; eapply in_combine_r; eauto]. Qed.
Lemma nonneg_smul a b : nonneg a -> nonneg b -> nonneg (smul a b).
Proof. apply nonneg_zip. intros; apply Rmult_le_pos; auto. Qed.
Lemma nonneg_sadd a b : nonneg a -> nonneg b -> nonneg (sadd a b).
Proof. apply nonneg_zip. intros; lra. Qed.
Lemma nonneg_sscale k a : 0 <= k -> nonneg a -> nonneg (sscale k a).
Proof. intros K. apply nonneg_map. intros; apply Rmult_le_pos; auto. Qed.
Lemma nonneg_fill n x : 0 <= x -> nonneg (fill n x).
Proof. intros H y I. apply repeat_spec in I. subst; auto. Qed.
Lemma nonneg_beer e t : nonneg (beer e t).
Proof. intros x I. apply in_map_iff in I. destruct I as (y & <- & _). apply Rlt_le, exp_pos. Qed.
Lemma inv_nonneg x : 0 < x -> 0 <= 1 / x.
Proof. intros. apply Rlt_le, Rdiv_lt_0_compat; lra. Qed.
Lemma heuristic_range f g w : heuristic f g = Some w -> 0 <= w <= 1.
Proof.
  unfold heuristic. destruct (Req_EM_T _ 0) as [|N]; [discriminate|]. intros E. inversion E; subst. clear E.
  assert (P: 0 < f * f + g * g) by nra. split; [apply Rmult_le_pos; [nra|apply Rlt_le, Rinv_0_lt_compat, P]|].
  apply (Rmult_le_reg_r (f * f + g * g)); [auto|]. unfold Rdiv. rewrite Rmult_assoc, Rinv_l by auto. nra.
Qed.

(** free paths *)
Lemma free_path_below m u d t : 0 <= u < 1 -> sample_free_path m u = Some t -> (t < d <-> u < 1 - exp (- avg_ext (extinction m) * d)).
Proof.
  unfold sample_free_path. set (a := avg_ext (extinction m)). cbv zeta. destruct (Rleb a (/ 10 ^ 6)) eqn:E; [discriminate|]. intros Hu H.
  assert (T: t = - ln (1 - u) / a) by congruence. clear H. rb. assert (A: 0 < a) by (assert (0 < / 10 ^ 6) by (apply Rinv_0_lt_compat, pow_lt; lra); lra).
  assert (EX: exp (- a * t) = 1 - u) by (rewrite T; replace (- a * (- ln (1 - u) / a)) with (ln (1 - u)) by (field; lra); apply exp_ln; lra).
  assert (U: u = 1 - exp (- a * t)) by lra. rewrite U at 1. split; intros H.
  - assert (exp (- a * d) < exp (- a * t)) by (apply exp_increasing; nra). lra.
  - assert (exp (- a * d) < exp (- a * t)) by lra. destruct (Rlt_or_le t d); auto. exfalso.
    destruct H1 as [L|L]; [assert (exp (- a * t) < exp (- a * d)) by (apply exp_increasing; nra); lra|subst d; lra].
Qed.
Lemma ch_traverse n m d thr c : medium_ok n m -> List.length thr = n -> (c < n)%nat ->
  ch c (traverse m d thr) = 1 / exp (- avg_ext (extinction m) * d) * (ch c thr * exp (- sigma m c * d)).
Proof.
  intros M L C. pose proof (extinction_length n m M) as E. unfold traverse. cbv zeta.
  rewrite ch_sscale by (rewrite smul_length; rewrite ?beer_length; lia). unfold smul. rewrite ch_zip by (rewrite ?beer_length; lia).
  rewrite ch_beer by lia. rewrite (ch_extinction n) by auto. reflexivity.
Qed.
Lemma ch_collide n m t thr c : medium_ok n m -> List.length thr = n -> (c < n)%nat ->
  ch c (collide m t thr) = 1 / (avg_ext (extinction m) * exp (- avg_ext (extinction m) * t)) * (ch c thr * ch c (scattering m) * exp (- sigma m c * t)).
Proof.
  intros M L C. pose proof (extinction_length n m M) as E. destruct M as (M1 & M2 & M3). unfold collide. cbv zeta.
  assert (LL: List.length (smul thr (scattering m)) = n) by (rewrite smul_length; lia).
  rewrite ch_sscale by (rewrite smul_length; rewrite ?beer_length; lia). unfold smul at 1. rewrite ch_zip by (rewrite ?beer_length; lia).
  unfold smul. rewrite ch_zip by lia. rewrite ch_beer by lia. rewrite (ch_extinction n) by (repeat split; tauto). reflexivity.
Qed.

(** shadow rays *)
Section Shadow.
Variable medium : prim -> option med.
Variable props : med -> medium_props.
Variable n : nat.
Hypothesis P : forall m, medium_ok n (props m).
Hypothesis NP : (0 < n)%nat.
Lemma toggles_snoc w p st : toggles medium empty_stack w = Ok st -> toggles medium empty_stack (w ++ [p]) = toggle medium st p.
Proof. intros H. rewrite toggles_app, H. cbn. destruct (toggle medium st p); reflexivity. Qed.
Lemma top_of w st path : toggles medium empty_stack w = Ok st -> inside medium w path -> (List.length path <= 8)%nat ->
  top st = Ok (match path with [] => None | p :: _ => medium p end).
Proof. intros T I L. destruct (medium_stack_top_is_innermost medium w path I L) as (s & E & H). rewrite T in E. inversion E; subst. exact H. Qed.
Lemma wf_of w st : toggles medium empty_stack w = Ok st -> forall p, exists st', toggle medium st p = Ok st'.
Proof.
  intros T p. destruct (toggles_wf medium w empty_stack wf_empty) as (s & E & W). rewrite T in E. inversion E; subst.
  destruct (toggle_wf medium s p W) as (s' & H & _). eauto.
Qed.

Lemma shadow_value s rest crossed : forall w st tr rem,
  toggles medium empty_stack w = Ok st -> List.length tr = n -> nonneg tr ->
  (forall h, In h crossed -> 0 <= c_t h /\ List.length (c_trans h) = n /\ nonneg (c_trans h)) ->
  total_t crossed < rem ->
  match rest with [] => True | h :: _ => rem - total_t crossed <= c_t h end ->
  (forall k c, (k <= List.length crossed)%nat -> (c < n)%nat -> coefficient medium props (w ++ map c_prim (firstn k crossed)) c (s c (w ++ map c_prim (firstn k crossed)))) ->
  exists out, shadow medium props st tr rem (crossed ++ rest) = Ok out /\ List.length out = n /\
    forall c, (c < n)%nat -> ch c out = ch c tr * exp (- optical_depth (s c) w crossed rem) * product (map (factor c) crossed).
Proof.
  induction crossed as [|h r IH]; intros w st tr rem T L N H R Q S.
  - cbn [app List.length total_t fold_right map product optical_depth] in *. 
    assert (S0: forall c, (c < n)%nat -> coefficient medium props w c (s c w)) by (intros c Hc; specialize (S 0%nat c (le_n _) Hc); cbn in S; rewrite app_nil_r in S; exact S).
    assert (IR: (match rest with h :: _ => Rltb (c_t h) rem | [] => false end) = false) by (destruct rest; auto; apply Rltb_false; lra).
    assert (G: shadow medium props st tr rem rest = obind (top st) (fun active => let tr1 := match active with Some m => smul tr (evaluate_transmittance (props m) rem) | None => tr end in
       if match active with Some _ => Rleb (vmax tr1) 0 | None => false end then Ok (fill (List.length tr) 0) else Ok tr1)).
    { destruct rest as [|h r]; cbn [shadow]; (destruct (Rleb rem 0) eqn:E0; [rb; lra|]).
      - reflexivity.
      - rewrite IR. destruct (top st) as [active| |]; cbn [obind]; auto. }
    rewrite G. clear G. destruct (S0 0%nat NP) as (path & I & LP & _). rewrite (top_of w st path T I LP). cbn [obind]. cbv zeta.
    assert (SC: forall c, (c < n)%nat -> s c w = match match path with [] => None | p :: _ => medium p end with Some m => sigma (props m) c | None => 0 end).
    { intros c Hc. destruct (S0 c Hc) as (path' & I' & LP' & ->). pose proof (top_of w st path T I LP) as A. pose proof (top_of w st path' T I' LP') as B. rewrite A in B. inversion B as [B'].
      rewrite B'. destruct path'; reflexivity. }
    destruct (match path with [] => None | p :: _ => medium p end) as [m|].
    + assert (V: forall c, (c < n)%nat -> ch c (smul tr (evaluate_transmittance (props m) rem)) = ch c tr * exp (- (s c w * rem))).
      { intros c Hc. unfold smul. rewrite ch_zip by (rewrite ?(transmittance_length n) by auto; lia). rewrite (ch_transmittance n) by (auto; lra). rewrite (SC c Hc). f_equal. f_equal. ring. }
      assert (NN: nonneg (smul tr (evaluate_transmittance (props m) rem))).
      { apply nonneg_smul; auto. unfold evaluate_transmittance. destruct (Rleb rem 0); [apply nonneg_fill; lra|apply nonneg_beer]. }
      destruct (Rleb (vmax (smul tr (evaluate_transmittance (props m) rem))) 0) eqn:Z.
      * exists (fill (List.length tr) 0). split; [reflexivity|]. split; [rewrite fill_length; auto|]. intros c Hc. rewrite ch_fill by lia. rewrite Rmult_1_r, <- V by auto.
        symmetry. apply vmax_zero; auto. apply Rleb_true in Z. auto.
      * eexists. split; [reflexivity|]. split; [rewrite smul_length; rewrite ?(transmittance_length n) by auto; lia|]. intros c Hc. rewrite V by auto. ring.
    + exists tr. split; [reflexivity|]. split; [auto|]. intros c Hc. rewrite (SC c Hc). rewrite Rmult_0_l, Ropp_0, exp_0. ring.
  - assert (HH: 0 <= c_t h /\ List.length (c_trans h) = n /\ nonneg (c_trans h)) by (apply H; left; auto). destruct HH as (HT & HL & HN).
    assert (S0: forall c, (c < n)%nat -> coefficient medium props w c (s c w)) by (intros c Hc; specialize (S 0%nat c (Nat.le_0_l _) Hc); cbn in S; rewrite app_nil_r in S; exact S).
    assert (RP: 0 <= total_t r). { assert (forall h, In h r -> 0 <= c_t h) by (intros; apply H; right; auto). clear - H0. induction r as [|a r IH]; cbn; [lra|]. pose proof (H0 a (or_introl eq_refl)). specialize (IH (fun h I => H0 h (or_intror I))). fold (total_t r). lra. }
    cbn [total_t fold_right] in R, Q. fold (total_t r) in R, Q.
    cbn [app shadow]. destruct (Rleb rem 0) eqn:E0; [rb; lra|]. assert (IR: Rltb (c_t h) rem = true) by (apply Rltb_true; lra). rewrite IR. cbv zeta.
    destruct (S0 0%nat NP) as (path & I & LP & _). rewrite (top_of w st path T I LP). cbn [obind].
    assert (SC: forall c, (c < n)%nat -> s c w = match match path with [] => None | p :: _ => medium p end with Some m => sigma (props m) c | None => 0 end).
    { intros c Hc. destruct (S0 c Hc) as (path' & I' & LP' & ->). pose proof (top_of w st path T I LP) as A. pose proof (top_of w st path' T I' LP') as B. rewrite A in B. inversion B as [B'].
      rewrite B'. destruct path'; reflexivity. }
    set (active := match path with [] => None | p :: _ => medium p end) in *.
    set (tr1 := match active with Some m => smul tr (evaluate_transmittance (props m) (c_t h)) | None => tr end).
    assert (V1: List.length tr1 = n /\ nonneg tr1 /\ forall c, (c < n)%nat -> ch c tr1 = ch c tr * exp (- (s c w * c_t h))).
    { unfold tr1. destruct active as [m|].
      - split; [rewrite smul_length; rewrite ?(transmittance_length n) by auto; lia|]. split.
        + apply nonneg_smul; auto. unfold evaluate_transmittance. destruct (Rleb (c_t h) 0); [apply nonneg_fill; lra|apply nonneg_beer].
        + intros c Hc. unfold smul. rewrite ch_zip by (rewrite ?(transmittance_length n) by auto; lia). rewrite (ch_transmittance n) by auto. rewrite (SC c Hc). f_equal. f_equal. ring.
      - split; [auto|]. split; [auto|]. intros c Hc. rewrite (SC c Hc). rewrite Rmult_0_l, Ropp_0, exp_0. ring. }
    destruct V1 as (L1 & N1 & V1).
    assert (ST: exists st', toggle medium st (c_prim h) = Ok st') by (apply (wf_of w st T)). destruct ST as (st' & ST).
    assert (T': toggles medium empty_stack (w ++ [c_prim h]) = Ok st') by (rewrite (toggles_snoc w (c_prim h) st T); auto).
    assert (S': forall k c, (k <= List.length r)%nat -> (c < n)%nat -> coefficient medium props ((w ++ [c_prim h]) ++ map c_prim (firstn k r)) c (s c ((w ++ [c_prim h]) ++ map c_prim (firstn k r)))).
    { intros k c Hk Hc. rewrite <- app_assoc. cbn [app]. specialize (S (Datatypes.S k) c). cbn in S. apply S; [lia|auto]. }
    assert (K: forall tr2, List.length tr2 = n -> nonneg tr2 -> exists out, shadow medium props st' tr2 (rem - c_t h) (r ++ rest) = Ok out /\ List.length out = n /\
       forall c, (c < n)%nat -> ch c out = ch c tr2 * exp (- optical_depth (s c) (w ++ [c_prim h]) r (rem - c_t h)) * product (map (factor c) r)).
    { intros tr2 L2 N2. apply (IH (w ++ [c_prim h]) st' tr2 (rem - c_t h)); auto; [intros; apply H; right; auto|lra|]. destruct rest; auto. lra. }
    destruct (match active with Some _ => Rleb (vmax tr1) 0 | None => false end) eqn:Z.
    { assert (Z': vmax tr1 <= 0) by (destruct active; [apply Rleb_true in Z; auto|discriminate]).
      exists (fill (List.length tr) 0). split; [reflexivity|]. split; [rewrite fill_length; auto|]. intros c Hc. rewrite ch_fill by lia. cbn [map product fold_right optical_depth].
      rewrite Ropp_plus_distr, exp_plus. rewrite <- !Rmult_assoc. rewrite <- V1 by auto. rewrite (vmax_zero tr1 c N1 Z'). ring. }
    destruct (Rltb (c_opacity h) 1 && Rltb (c_opacity h) (c_u h)) eqn:PS.
    + rewrite ST. cbn [obind]. destruct (K tr1 L1 N1) as (out & O1 & O2 & O3). exists out. split; [exact O1|]. split; [exact O2|]. intros c Hc.
      rewrite (O3 c Hc), (V1 c Hc). cbn [map product fold_right optical_depth]. unfold factor at 2. rewrite PS. fold (product (map (factor c) r)). rewrite Ropp_plus_distr, exp_plus. ring.
    + destruct (Rleb (vmax (c_trans h)) 0) eqn:B.
      * exists (fill (List.length tr) 0). split; [reflexivity|]. split; [rewrite fill_length; auto|]. intros c Hc. rewrite ch_fill by lia. cbn [map product fold_right]. unfold factor at 1. rewrite PS.
        apply Rleb_true in B. rewrite (vmax_zero (c_trans h) c HN B). ring.
      * rewrite ST. cbn [obind]. destruct (K (smul tr1 (c_trans h))) as (out & O1 & O2 & O3); [rewrite smul_length; lia|apply nonneg_smul; auto|].
        exists out. split; [exact O1|]. split; [exact O2|]. intros c Hc. rewrite (O3 c Hc). unfold smul. rewrite ch_zip by lia. rewrite (V1 c Hc).
        cbn [map product fold_right optical_depth]. unfold factor at 2. rewrite PS. fold (product (map (factor c) r)). rewrite Ropp_plus_distr, exp_plus. ring.
Qed.
End Shadow.

(** the path *)
Lemma deposit_ok b x p : nonneg x -> nonneg (p_direct p) -> nonneg (p_indirect p) -> nonneg (p_direct (deposit b x p)) /\ nonneg (p_indirect (deposit b x p)).
Proof. intros X D I. unfold deposit. destruct (Nat.eqb b 0); cbn; split; auto; apply nonneg_sadd; auto. Qed.
Definition path_ok (p : path) : Prop := nonneg (p_thr p) /\ nonneg (p_direct p) /\ nonneg (p_indirect p).
Lemma deposit_path_ok b x p : nonneg x -> path_ok p -> path_ok (deposit b x p).
Proof. intros X (T & D & I). split; [unfold deposit; destruct (Nat.eqb b 0); auto|]. apply deposit_ok; auto. Qed.
Lemma nee_surface_ok t l x : nonneg t -> surf_light_ok l -> nee_surface t l = Some x -> nonneg x.
Proof.
  intros T (A & B & C & D & E). unfold nee_surface. destruct (Rleb _ 0); [intros X; inversion X; apply nonneg_fill; lra|].
  destruct (heuristic _ _) as [w|] eqn:W; [|discriminate]. intros X. inversion X; subst. apply nonneg_smul; auto. apply nonneg_sscale; [apply (heuristic_range _ _ _ W)|].
  apply nonneg_sscale; auto. apply nonneg_smul; auto. apply nonneg_smul; auto. apply nonneg_sscale; auto. apply inv_nonneg; auto.
Qed.
Lemma nee_volume_ok t l : nonneg t -> vol_light_ok l -> nonneg (nee_volume t l).
Proof.
  intros T (A & B & C & D). unfold nee_volume. destruct (Rleb _ 0); [apply nonneg_fill; lra|]. apply nonneg_smul; auto. apply nonneg_sscale; auto. apply nonneg_smul; auto. apply nonneg_sscale; auto. apply inv_nonneg; auto.
Qed.
Lemma nee_all_ok b ls : forall p q, (forall l, In l ls -> surf_light_ok l) -> path_ok p -> nee_all b ls p = Some q -> path_ok q.
Proof.
  induction ls as [|l ls IH]; intros p q H P E; cbn in E; [inversion E; subst; auto|].
  destruct (nee_surface (p_thr p) l) as [x|] eqn:X; [|discriminate]. apply (IH _ _ (fun l I => H l (or_intror I)) (deposit_path_ok b x p (nee_surface_ok _ _ _ (proj1 P) (H l (or_introl eq_refl)) X) P) E).
Qed.
Lemma roulette_ok u t t' : nonneg t -> roulette u t = Some (Some t') -> nonneg t'.
Proof.
  intros T. unfold roulette. cbv zeta. destruct (Rltb _ u); [discriminate|]. destruct (Req_EM_T _ 0) as [|N]; [discriminate|]. intros E. inversion E; subst. clear E.
  apply nonneg_map; [|auto]. intros x I X. apply Rmult_le_pos; auto. apply Rlt_le, Rinv_0_lt_compat. pose proof (vmax_nonneg t T). unfold survival in *.
  assert (0 <= Rmin (95 / 100) (vmax t)) by (apply Rmin_glb; lra). lra.
Qed.
Definition next_path (x : next) : option path := match x with Bounce p | Pass p | Stop p => Some p | _ => None end.
Lemma surface_step_ok medium b s p q : target_ok (HitSurface s) -> path_ok p -> next_path (surface_step medium b s p) = Some q -> path_ok q.
Proof.
  intros (A & B) P. unfold surface_step. destruct (_ && _).
  - destruct (toggle _ _ _); cbn; try discriminate. intros E. inversion E; subst. exact P.
  - destruct (nee_all b (s_lights s) p) as [p1|] eqn:N; [|discriminate]. assert (P1: path_ok p1) by (eapply nee_all_ok; eauto).
    destruct (s_bsdf s) as [bc|] eqn:BS; [|cbn; intros E; inversion E; subst; auto]. cbv zeta.
    set (p2 := set_thr _ _). assert (P2: path_ok p2). { destruct P1 as (P11 & P12 & P13). split; [|split]; auto. cbn. apply nonneg_smul; auto. }
    destruct (if Nat.leb 3 b then roulette (s_u_roulette s) (p_thr p2) else Some (Some (p_thr p2))) as [[t|]|] eqn:RO; [| |discriminate].
    + assert (TN: nonneg t). { destruct (Nat.leb 3 b); [eapply roulette_ok; [|apply RO]; apply P2|inversion RO; subst; apply P2]. }
      assert (P3: path_ok (set_thr t p2)) by (destruct P2 as (? & ? & ?); split; [|split]; auto).
      destruct (s_transmitted s); [destruct (toggle _ _ _); cbn; try discriminate|cbn]; intros E; inversion E; subst; exact P3.
    + cbn. intros E. inversion E; subst; auto.
Qed.
Lemma arrive_ok medium b g p q : segment_ok g -> path_ok p -> next_path (arrive medium b g p) = Some q -> path_ok q.
Proof.
  intros (G & _) P. unfold arrive. destruct (g_target g) as [env|Le lp|s].
  - cbn. intros E. inversion E; subst. apply deposit_path_ok; auto. apply nonneg_smul; auto. apply P.
  - unfold hit_light. destruct (if Nat.eqb b 0 then Some 1 else heuristic (p_prev p) lp) as [w|] eqn:W; [|discriminate]. cbn. intros E. inversion E; subst. apply deposit_path_ok; auto.
    apply nonneg_sscale; [|apply nonneg_smul; auto; apply P]. destruct (Nat.eqb b 0); [inversion W; lra|apply (heuristic_range _ _ _ W)].
  - apply surface_step_ok; auto.
Qed.
Lemma fold_vol_ok b ls : forall p, (forall l, In l ls -> vol_light_ok l) -> path_ok p -> path_ok (fold_left (fun q l => deposit b (nee_volume (p_thr q) l) q) ls p).
Proof. induction ls as [|l ls IH]; intros p H P; cbn; auto. apply IH; [intros; apply H; right; auto|]. apply deposit_path_ok; auto. apply nee_volume_ok; [apply P|apply H; left; auto]. Qed.
Lemma iterate_ok medium props b g p q : (forall m, nonneg (scattering (props m))) -> segment_ok g -> path_ok p -> next_path (iterate medium props b g p) = Some q -> path_ok q.
Proof.
  intros M G P. unfold iterate. destruct (top (p_stack p)) as [[m|]| |]; try discriminate; [|apply arrive_ok; auto]. cbv zeta.
  assert (TR: path_ok (set_thr (traverse (props m) (g_t g) (p_thr p)) p)).
  { destruct P as (P1 & P2 & P3). split; [|split]; auto. cbn. apply nonneg_sscale; [apply inv_nonneg, exp_pos|]. apply nonneg_smul; auto. apply nonneg_beer. }
  destruct (sample_free_path (props m) (g_u_free g)) as [t|] eqn:F.
  - destruct (negb _ || _); [|apply arrive_ok; auto]. cbn. intros E. inversion E; subst. clear E.
    assert (A: 0 < avg_ext (extinction (props m))). { unfold sample_free_path in F. cbv zeta in F. destruct (Rleb _ _) eqn:E; [discriminate|]. rb. assert (0 < / 10 ^ 6) by (apply Rinv_0_lt_compat, pow_lt; lra). lra. }
    set (p1 := set_thr (collide (props m) t (p_thr p)) p). assert (P1: path_ok p1).
    { destruct P as (P1 & P2 & P3). split; [|split]; auto. cbn. unfold collide. apply nonneg_sscale; [apply inv_nonneg, Rmult_lt_0_compat; [auto|apply exp_pos]|].
      apply nonneg_smul; [apply nonneg_smul; auto|apply nonneg_beer]. }
    destruct G as (_ & G2 & G3 & G4). pose proof (fold_vol_ok b (g_vol_lights g) p1 G2 P1) as (F1 & F2 & F3). split; [|split]; auto. cbn. apply nonneg_sscale; auto.
    apply Rmult_le_pos; auto. apply Rlt_le, Rinv_0_lt_compat; auto.
  - destruct (g_target g) eqn:GT; [discriminate| |]; apply arrive_ok; auto.
Qed.
Lemma trace_ok medium props mb gs : (forall m, nonneg (scattering (props m))) -> (forall g, In g gs -> segment_ok g) ->
  forall b p q, path_ok p -> (trace medium props mb b gs p = Done q \/ trace medium props mb b gs p = Unfinished q) -> path_ok q.
Proof.
  intros M. induction gs as [|g gs IH]; intros H b p q P; cbn.
  - destruct (Nat.leb mb b); intros [E|E]; inversion E; subst; auto.
  - destruct (Nat.leb mb b); [intros [E|E]; inversion E; subst; auto|]. pose proof (iterate_ok medium props b g p) as IO.
    assert (H': forall g, In g gs -> segment_ok g) by (intros; apply H; right; auto). assert (GO: segment_ok g) by (apply H; left; auto).
    destruct (iterate medium props b g p) as [x|x|x| |]; cbn in IO; [apply (IH H'); apply IO; auto|apply (IH H'); apply IO; auto| | |]; intros [E|E]; inversion E; subst; apply IO; auto.
Qed.
Lemma iterate_pass medium props b g p q : iterate medium props b g p = Pass q -> slips g = true.
Proof.
  assert (SS: forall s p, g_target g = HitSurface s -> surface_step medium b s p = Pass q -> slips g = true).
  { intros s p0 G E. unfold slips. rewrite G. unfold surface_step in E. destruct (_ && _); auto. destruct (nee_all _ _ _); [|discriminate]. destruct (s_bsdf s); [|discriminate]. cbv zeta in E.
    destruct (if Nat.leb 3 b then _ else _) as [[?|]|]; [|discriminate|discriminate]. destruct (s_transmitted s); [destruct (toggle _ _ _)|]; discriminate. }
  assert (AR: forall p, arrive medium b g p = Pass q -> slips g = true).
  { intros p0. unfold arrive. destruct (g_target g) eqn:G; [discriminate| |apply SS; auto]. destruct (hit_light _ _ _ _ _); discriminate. }
  unfold iterate. destruct (top (p_stack p)) as [[m|]| |]; try discriminate; [|apply AR]. cbv zeta. destruct (sample_free_path _ _); [destruct (negb _ || _); [discriminate|apply AR]|].
  destruct (match g_target g with Miss _ => false | _ => true end); [apply AR|discriminate].
Qed.
Definition counted (gs : list segment) : nat := List.length (filter (fun g => negb (slips g)) gs).
Lemma trace_count medium props mb gs : forall b p q, trace medium props mb b gs p = Unfinished q -> (b + counted gs < mb)%nat.
Proof.
  induction gs as [|g gs IH]; intros b p q; cbn.
  - destruct (Nat.leb mb b) eqn:E; [discriminate|]. apply Nat.leb_gt in E. intros _. unfold counted. cbn. lia.
  - destruct (Nat.leb mb b) eqn:E; [discriminate|]. pose proof (iterate_pass medium props b g p) as IP.
    destruct (iterate medium props b g p) as [x|x|x| |]; try discriminate; intros H.
    + apply IH in H. unfold counted in *. cbn. destruct (slips g); cbn; lia.
    + apply IH in H. unfold counted in *. cbn. rewrite (IP x eq_refl). cbn. auto.
Qed.
