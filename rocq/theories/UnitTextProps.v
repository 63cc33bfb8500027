(* C145: the text of a unit says which dimension it is. *)
From Coq Require Import String Ascii List ZArith Reals Lra Lia Decimal DecimalString DecimalPos DecimalFacts.
From Verif Require Import UnitTextModel.
Import ListNotations.
Local Open Scope string_scope.
Local Open Scope Z_scope.

Definition block (v : Z) (u : string) : string := get_si_unit_string 1 v u.
Definition nums := accumulate 1.
Lemma neg_block v u : get_si_unit_string (-1) v u = block (- v) u.
Proof. unfold block, get_si_unit_string. replace (-1 * v) with (- v) by ring. rewrite Z.mul_1_l. reflexivity. Qed.
Lemma neg_accumulate names vals : accumulate (-1) names vals = nums names (map Z.opp vals).
Proof. revert vals. induction names as [|n names IH]; intros [|v vals]; try reflexivity. cbn [accumulate map nums]. rewrite neg_block, IH. reflexivity. Qed.
Lemma block_cases v u : (v <= 0 /\ block v u = "") \/ (v = 1 /\ block v u = u) \/ (1 < v /\ block v u = "(" ++ u ++ ")^" ++ to_string v).
Proof.
  unfold block, get_si_unit_string. rewrite Z.mul_1_l. destruct (Z.eqb_spec v 0); [left; split; [lia|auto]|]. destruct (Z.eqb_spec v 1); [right; left; auto|].
  destruct (Z.ltb_spec 1 v); [right; right; auto|left; split; [lia|auto]].
Qed.
(** strings *)
Lemma app_assoc (a b c : string) : (a ++ b) ++ c = a ++ (b ++ c).
Proof. induction a; cbn; congruence. Qed.
Lemma app_nil (a : string) : a ++ "" = a.
Proof. induction a; cbn; congruence. Qed.
Lemma app_cancel (a b c : string) : a ++ b = a ++ c -> b = c.
Proof. induction a; cbn; auto. intros H. injection H as H. auto. Qed.
Definition digit (c : ascii) : bool := existsb (Ascii.eqb c) ["0"; "1"; "2"; "3"; "4"; "5"; "6"; "7"; "8"; "9"]%char.
Definition no_digit (s : string) : Prop := match s with String c _ => digit c = false | EmptyString => True end.
Lemma digits_inj a : forall b r r', no_digit r -> no_digit r' -> NilEmpty.string_of_uint a ++ r = NilEmpty.string_of_uint b ++ r' -> a = b /\ r = r'.
Proof.
  induction a; intros b r r' R R' H; destruct b; cbn [NilEmpty.string_of_uint append] in H;
  try (split; [reflexivity|exact H]);
  try (injection H as H; apply IHa in H as [-> ->]; auto; fail);
  try (rewrite H in R; discriminate R); try (rewrite <- H in R'; discriminate R'); try discriminate H.
Qed.
Lemma to_string_inj v v' r r' : 1 < v -> 1 < v' -> no_digit r -> no_digit r' -> to_string v ++ r = to_string v' ++ r' -> v = v' /\ r = r'.
Proof.
  intros V V' R R' H. unfold to_string in H. apply digits_inj in H as [E ->]; auto. split; auto. apply (f_equal Pos.of_uint) in E. rewrite !DecimalPos.Unsigned.of_to in E. injection E as E.
  rewrite <- (Z2Pos.id v), <- (Z2Pos.id v') by lia. congruence.
Qed.
(** what a sum of blocks looks like at its beginning *)
Definition ends (t : string) : Prop := t = "" \/ exists t', t = String " " t'.
Inductive head (t : string) : list string -> string -> Prop :=
| HEnd us : head t us t
| HOne u us vs : head t (u :: us) (u ++ nums us vs ++ t)
| HPow u us r : head t (u :: us) ("(" ++ u ++ ")^" ++ r)
| HSkip u us X : head t us X -> head t (u :: us) X.
Lemma nums_head t us : forall vs, head t us (nums us vs ++ t).
Proof.
  induction us as [|u us IH]; intros [|v vs]; try apply HEnd. cbn [nums accumulate]. fold (block v u). fold nums.
  destruct (block_cases v u) as [[_ ->]|[[_ ->]|[_ ->]]].
  - apply HSkip. cbn [append]. apply IH.
  - rewrite app_assoc. apply HOne.
  - rewrite !app_assoc. apply HPow.
Qed.
Lemma ends_char c s : ends (String c s) -> c = " "%char.
Proof. intros [H|(t & H)]; [discriminate|]. injection H as -> _. reflexivity. Qed.
(* suffixes of the list of names *)
Definition splits : list (string * list string) := [("m", ["Kg"; "s"; "A"; "K"; "mol"; "cd"; "rad"; "sr"]); ("Kg", ["s"; "A"; "K"; "mol"; "cd"; "rad"; "sr"]); ("s", ["A"; "K"; "mol"; "cd"; "rad"; "sr"]); ("A", ["K"; "mol"; "cd"; "rad"; "sr"]);
  ("K", ["mol"; "cd"; "rad"; "sr"]); ("mol", ["cd"; "rad"; "sr"]); ("cd", ["rad"; "sr"]); ("rad", ["sr"]); ("sr", [])].
(* the possible first characters: of the end, of a later unit, or a bracket *)
Lemma head_first t us X : head t us X -> (forall u, In u us -> exists c r, u = String c r) -> X = t \/ exists c r, X = String c r /\ (c = "("%char \/ exists r', In (String c r') us).
Proof.
  induction 1 as [us|u us vs|u us r|u us X H IH]; intros N; [auto|right|right|].
  - destruct (N u (or_introl eq_refl)) as (c & r & ->). cbn [append]. eexists _, _. split; [reflexivity|]. right. exists r. left. reflexivity.
  - cbn [append]. eexists _, _. split; [reflexivity|]. left. reflexivity.
  - destruct IH as [->|(c & r & -> & I)]; [intros; apply N; right; auto|auto|]. right. eexists _, _. split; [reflexivity|]. destruct I as [I|(r' & I)]; [auto|right; exists r'; right; exact I].
Qed.
Lemma head_not_power t us X r u : head t us X -> ends t -> ~ In u us -> (forall u', In u' (u :: us) -> exists n, (n < 3)%nat /\ In (u', n) [("m", 0%nat); ("Kg", 0%nat); ("s", 0%nat); ("A", 0%nat); ("K", 0%nat); ("mol", 0%nat); ("cd", 0%nat); ("rad", 0%nat); ("sr", 0%nat)]) ->
  X <> "(" ++ u ++ ")^" ++ r.
Proof.
  intros H E N A. assert (U : In u ["m"; "Kg"; "s"; "A"; "K"; "mol"; "cd"; "rad"; "sr"]).
  { destruct (A u (or_introl eq_refl)) as (n & _ & I). cbn in I. cbn. repeat (destruct I as [I|I]; [injection I as <- _; auto 12|]). destruct I. }
  revert N A. induction H as [us|u' us vs|u' us r'|u' us X H IH]; intros N A Q.
  - destruct E as [->|(t' & ->)]; discriminate.
  - destruct (A u' (or_intror (or_introl eq_refl))) as (n & _ & I). cbn in I. repeat (destruct I as [I|I]; [injection I as <- _; discriminate Q|]). destruct I.
  - cbn [append] in Q. injection Q as Q. assert (I' : In u' ["m"; "Kg"; "s"; "A"; "K"; "mol"; "cd"; "rad"; "sr"]).
    { destruct (A u' (or_intror (or_introl eq_refl))) as (n & _ & I). cbn in I. cbn. repeat (destruct I as [I|I]; [injection I as <- _; auto 12|]). destruct I. }
    cbn in U, I'. repeat (destruct U as [<-|U]; [repeat (destruct I' as [<-|I']; [try discriminate Q; apply N; left; reflexivity|]); destruct I'|]). destruct U.
  - apply IH; auto. intros I. apply N. right. auto. intros u'' [<-|I]; apply A; cbn; auto.
Qed.
Fixpoint forms (t : string) (us : list string) (X : string) : Prop :=
  match us with
  | [] => X = t
  | u :: us' => (exists vs, X = u ++ nums us' vs ++ t) \/ (exists r, X = "(" ++ u ++ ")^" ++ r) \/ forms t us' X
  end.
Lemma head_forms t us X : head t us X -> forms t us X.
Proof. induction 1 as [us| | |]; cbn [forms]; eauto. induction us; cbn [forms]; auto. Qed.
Ltac all_forms F := cbn [forms] in F; repeat (match type of F with _ \/ _ => destruct F as [F|F] end); try (destruct F as (? & F)); cbn [append] in F.
Lemma one_not_later t t' u us X Y : In (u, us) splits -> ends t -> ends t' -> head t us X -> head t' us Y -> X <> u ++ Y.
Proof.
  intros S E E' HX HY Q. apply head_forms in HX, HY. cbn [In splits] in S.
  repeat match type of S with _ \/ _ => destruct S as [S|S] end; try (injection S as <- <-); try (destruct S; fail); cbn [append] in Q;
  all_forms HX; subst X; try discriminate Q; try (destruct E as [->|(? & ->)]; discriminate Q);
  injection Q as Q; try match type of Q with nums ?us ?vs ++ ?t = String "g" _ => let F := fresh in pose proof (head_forms _ _ _ (nums_head t us vs)) as F; rewrite Q in F; all_forms F; try discriminate F; destruct E as [->|(? & ->)]; discriminate F end;
  subst Y; all_forms HY; try discriminate HY; try (destruct E' as [->|(? & ->)]; discriminate HY);
  try (injection HY as HY; destruct E as [->|(? & ->)]; discriminate HY).
Qed.
Lemma names_power u us : In (u, us) splits -> ~ In u us /\ (forall u', In u' (u :: us) -> exists n, (n < 3)%nat /\ In (u', n) [("m", 0%nat); ("Kg", 0%nat); ("s", 0%nat); ("A", 0%nat); ("K", 0%nat); ("mol", 0%nat); ("cd", 0%nat); ("rad", 0%nat); ("sr", 0%nat)]) /\
  exists c r, u = String c r /\ c <> "("%char.
Proof.
  intros S. cbn [In splits] in S. repeat match type of S with _ \/ _ => destruct S as [S|S] end; try (destruct S; fail); injection S as <- <-.
  all: split; [intros I; cbn in I; repeat (destruct I as [I|I]; [discriminate I|]); exact I|split; [|eexists _, _; split; [reflexivity|discriminate]]].
  all: intros u' I; exists 0%nat; split; [lia|]; cbn in I |- *; repeat (destruct I as [<-|I]; [auto 12|]); destruct I.
Qed.
Lemma head_no_digit t us X : ends t -> (forall u, In u us -> exists c r, u = String c r /\ digit c = false) -> head t us X -> no_digit X.
Proof.
  intros E N H. induction H as [us|u us vs|u us r|u us X H IH].
  - destruct E as [->|(t' & ->)]; cbn; auto.
  - destruct (N u (or_introl eq_refl)) as (c & r & -> & D). exact D.
  - reflexivity.
  - apply IH. intros; apply N; right; auto.
Qed.
Lemma splits_letters u us : In (u, us) splits -> forall u', In u' us -> exists c r, u' = String c r /\ digit c = false.
Proof.
  intros S. cbn [In splits] in S. repeat match type of S with _ \/ _ => destruct S as [S|S] end; try (destruct S; fail); injection S as <- <-.
  all: intros u' I; cbn in I; repeat (destruct I as [<-|I]; [eexists _, _; split; [reflexivity|reflexivity]|]); destruct I.
Qed.
Lemma splits_next u us u' us' : In (u, us) splits -> us = u' :: us' -> In (u', us') splits.
Proof.
  intros S Q. cbn [In splits] in S. repeat match type of S with _ \/ _ => destruct S as [S|S] end; try (destruct S; fail); injection S as <- <-; try discriminate Q; injection Q as <- <-; cbn; auto 12.
Qed.
(* the blocks can be read off the text *)
Lemma nums_inj t t' us : (us = [] \/ exists u us', us = u :: us' /\ In (u, us') splits) -> ends t -> ends t' -> forall vs vs', List.length vs = List.length us -> List.length vs' = List.length us ->
  nums us vs ++ t = nums us vs' ++ t' -> map (Z.max 0) vs = map (Z.max 0) vs' /\ t = t'.
Proof.
  intros S E E'. induction us as [|u us IH]; intros vs vs' L L' Q.
  - destruct vs, vs'; try discriminate. split; auto.
  - destruct vs as [|v vs], vs' as [|v' vs']; try discriminate. destruct S as [S|(u0 & us0 & S1 & S)]; [discriminate|]. injection S1 as <- <-.
    assert (S' : us = [] \/ exists u1 us1, us = u1 :: us1 /\ In (u1, us1) splits). { destruct us as [|u1 us1]; [auto|right]. exists u1, us1. split; auto. eapply splits_next; eauto. }
    specialize (IH S'). cbn in L, L'.
    pose proof (nums_head t us vs) as HX. pose proof (nums_head t' us vs') as HY.
    destruct (names_power u us S) as (N1 & N2 & c & r & Uc & N3). pose proof (splits_letters u us S) as N4.
    cbn [nums accumulate] in Q. fold (block v u) (block v' u) in Q. fold nums in Q. rewrite !app_assoc in Q. cbn [map].
    destruct (block_cases v u) as [[V B]|[[V B]|[V B]]], (block_cases v' u) as [[V' B']|[[V' B']|[V' B']]]; rewrite B, B' in Q; cbn [append] in Q.
    + destruct (IH vs vs' ltac:(lia) ltac:(lia) Q) as [-> ->]. split; auto. f_equal. lia.
    + exfalso. exact (one_not_later t t' u us _ _ S E E' HX HY Q).
    + exfalso. rewrite !app_assoc in Q. exact (head_not_power t us _ _ u HX E N1 N2 Q).
    + exfalso. exact (one_not_later t' t u us _ _ S E' E HY HX (eq_sym Q)).
    + apply app_cancel in Q. destruct (IH vs vs' ltac:(lia) ltac:(lia) Q) as [-> ->]. split; auto. f_equal. lia.
    + exfalso. rewrite Uc in Q. cbn [append] in Q. injection Q as Q _. congruence.
    + exfalso. rewrite !app_assoc in Q. exact (head_not_power t' us _ _ u HY E' N1 N2 (eq_sym Q)).
    + exfalso. rewrite Uc in Q. cbn [append] in Q. injection Q as Q _. congruence.
    + injection Q as Q. rewrite !app_assoc in Q. apply app_cancel in Q. cbn [append] in Q. injection Q as Q. destruct (to_string_inj v v' _ _ V V' (head_no_digit t us _ E N4 HX) (head_no_digit t' us _ E' N4 HY) Q) as [-> Q'].
      destruct (IH vs vs' ltac:(lia) ltac:(lia) Q') as [-> ->]. split; auto.
Qed.

Definition names_splits : si_names = [] \/ exists u us', si_names = u :: us' /\ In (u, us') splits.
Proof. right. eexists _, _. split; [reflexivity|]. cbn. auto. Qed.
(* the text of an unnamed dimension: a numerator, possibly " / " and a denominator *)
Lemma letters u : In u si_names -> exists c r, u = String c r.
Proof. intros I. cbn in I. repeat (destruct I as [<-|I]; [eexists _, _; reflexivity|]). destruct I. Qed.
Definition num (d : dim) : string := nums si_names (exponents d).
Definition den (d : dim) : string := nums si_names (map Z.opp (exponents d)).
Lemma fallback_cases d : (num d = "" /\ den d = "" /\ fallback d = "dimensionless") \/ (num d = "" /\ den d <> "" /\ fallback d = "1 / " ++ den d) \/
  exists t, ends t /\ num d <> "" /\ fallback d = num d ++ t /\ ((t = "" /\ den d = "") \/ (t = " / " ++ den d /\ den d <> "")).
Proof.
  unfold fallback. rewrite neg_accumulate. fold nums. fold (num d) (den d). destruct (String.eqb_spec (den d) "") as [E|E], (String.eqb_spec (num d) "") as [E'|E']; cbn [andb].
  - left. auto.
  - right. right. exists "". split; [left; auto|]. split; auto. split; [rewrite app_nil; auto|]. left. auto.
  - right. left. auto.
  - right. right. exists (" / " ++ den d). split; [right; eexists; reflexivity|]. split; auto.
Qed.
Lemma max_both a b : Z.max 0 a = Z.max 0 b -> Z.max 0 (- a) = Z.max 0 (- b) -> a = b.
Proof. lia. Qed.
Lemma exponents_inj d d' : map (Z.max 0) (exponents d) = map (Z.max 0) (exponents d') -> map (Z.max 0) (map Z.opp (exponents d)) = map (Z.max 0) (map Z.opp (exponents d')) -> d = d'.
Proof.
  unfold exponents. cbn [map]. intros H1 H2. injection H1 as A1 A2 A3 A4 A5 A6 A7 A8 A9. injection H2 as B1 B2 B3 B4 B5 B6 B7 B8 B9. destruct d as [a1 a2 a3 a4 a5 a6 a7 a8 a9], d' as [b1 b2 b3 b4 b5 b6 b7 b8 b9]. cbn [d_L d_M d_T d_I d_O d_N d_J d_A d_S] in *. f_equal; apply max_both; assumption.
Qed.
Lemma nums_eq vs vs' : List.length vs = 9%nat -> List.length vs' = 9%nat -> nums si_names vs = nums si_names vs' -> map (Z.max 0) vs = map (Z.max 0) vs'.
Proof.
  intros L L' H. apply (nums_inj "" "" si_names names_splits); [left; auto|left; auto|exact L|exact L'|]. rewrite !app_nil. exact H.
Qed.
Lemma first_of_num d t : ends t -> num d <> "" -> exists c r, num d ++ t = String c r /\ In c ["("; "m"; "K"; "s"; "A"; "c"; "r"]%char.
Proof.
  intros E N. pose proof (nums_head "" si_names (exponents d)) as H. fold (num d) in H. rewrite app_nil in H. apply head_first in H; [|exact letters].
  destruct H as [H|(c & r & H & I)]; [contradiction|]. rewrite H. cbn [append]. eexists _, _. split; [reflexivity|]. destruct I as [->|(r' & I)]; [cbn; auto|].
  cbn in I. repeat (destruct I as [I|I]; [injection I as <- _; cbn; auto 12|]). destruct I.
Qed.
Lemma fallback_inj d d' : fallback d = fallback d' -> d = d'.
Proof.
  intros H. destruct (fallback_cases d) as [(N & D & F)|[(N & D & F)|(t & E & N & F & T)]], (fallback_cases d') as [(N' & D' & F')|[(N' & D' & F')|(t' & E' & N' & F' & T')]]; rewrite F, F' in H; try discriminate H.
  - apply exponents_inj; apply nums_eq; try reflexivity; unfold num, den in *; congruence.
  - destruct (first_of_num d' t' E' N') as (c & r & Q & I). rewrite Q in H. injection H as <- _. cbn in I. repeat (destruct I as [I|I]; [discriminate I|]). destruct I.
  - apply app_cancel in H. apply exponents_inj; apply nums_eq; try reflexivity; unfold num, den in *; congruence.
  - destruct (first_of_num d' t' E' N') as (c & r & Q & I). rewrite Q in H. injection H as <- _. cbn in I. repeat (destruct I as [I|I]; [discriminate I|]). destruct I.
  - destruct (first_of_num d t E N) as (c & r & Q & I). rewrite Q in H. injection H as -> _. cbn in I. repeat (destruct I as [I|I]; [discriminate I|]). destruct I.
  - destruct (first_of_num d t E N) as (c & r & Q & I). rewrite Q in H. injection H as -> _. cbn in I. repeat (destruct I as [I|I]; [discriminate I|]). destruct I.
  - unfold num in H. destruct (nums_inj t t' si_names names_splits E E' (exponents d) (exponents d') eq_refl eq_refl H) as [M ->].
    apply exponents_inj; auto. apply nums_eq; try reflexivity. fold (den d) (den d'). destruct T as [[T1 T2]|[T1 T2]], T' as [[T1' T2']|[T1' T2']]; try congruence; rewrite T1 in T1'; try discriminate T1'. apply app_cancel in T1'. exact T1'.
Qed.
Lemma dim_eq_spec a b : dim_eq a b = true <-> a = b.
Proof.
  destruct a, b. unfold dim_eq. cbn. rewrite !Bool.andb_true_iff, !Z.eqb_eq. split; [intros (A1 & A2 & A3 & A4 & A5 & A6 & A7 & A8 & A9 & _); congruence|intros H; injection H as -> -> -> -> -> -> -> -> ->; auto 12].
Qed.
Lemma fallback_not_named d p : In p named -> fallback d <> snd p.
Proof.
  intros I H. assert (C : snd p = "cd / m^2" \/ snd p <> "cd / m^2") by (destruct (String.eqb_spec (snd p) "cd / m^2"); auto). destruct C as [C|C].
  - rewrite C in H. destruct (fallback_cases d) as [(N & D & F)|[(N & D & F)|(t & E & N & F & T)]]; rewrite F in H; try discriminate H.
    change ("cd / m^2") with (nums si_names [0; 0; 0; 0; 0; 0; 1; 0; 0] ++ " / m^2") in H. unfold num in H.
    destruct (nums_inj t " / m^2" si_names names_splits E ltac:(right; eexists; reflexivity) (exponents d) [0; 0; 0; 0; 0; 0; 1; 0; 0] eq_refl eq_refl H) as [M T'].
    destruct T as [[-> _]|[-> T2]]; [discriminate T'|]. apply (app_cancel " / ") in T' as T''. unfold den in T''.
    pose proof (head_forms _ _ _ (nums_head "" si_names (map Z.opp (exponents d)))) as F'. rewrite app_nil, T'' in F'. unfold si_names in F'. all_forms F'; try discriminate F'.
    injection F' as F'. match type of F' with "^2" = nums ?us ?vs ++ ?t => pose proof (head_forms _ _ _ (nums_head t us vs)) as G end. rewrite <- F' in G. all_forms G; discriminate G.
  - assert (S : exists c r, snd p = String c r /\ ~ In c ["d"; "1"; "("; "m"; "K"; "s"; "A"; "c"; "r"]%char).
    { clear H. cbn [In named] in I. repeat match type of I with _ \/ _ => destruct I as [I|I] end; try (destruct I; fail); subst p; cbn [snd] in C |- *;
      first [exfalso; apply C; reflexivity | eexists _, _; split; [reflexivity|]; intros J; cbn [In] in J; repeat match type of J with _ \/ _ => destruct J as [J|J] end; try discriminate J; destruct J]. }
    destruct S as (c & r & S & NI). rewrite S in H. destruct (fallback_cases d) as [(N & D & F)|[(N & D & F)|(t & E & N & F & T)]]; rewrite F in H.
    + injection H as <- _. apply NI. cbn. auto.
    + injection H as <- _. apply NI. cbn. auto.
    + destruct (first_of_num d t E N) as (c' & r' & Q & J). rewrite Q in H. injection H as -> _. apply NI. cbn in J |- *. tauto.
Qed.
(* C145: two dimensions with the same text are the same: the text of a unit can be trusted *)
Theorem C145_unit_text : forall d d', to_si_string d = to_si_string d' -> d = d'.
Proof.
  intros d d' H. unfold to_si_string in H.
  destruct (find (fun p => dim_eq (fst p) d) named) as [p|] eqn:F, (find (fun p => dim_eq (fst p) d') named) as [p'|] eqn:F'.
  - apply find_some in F as [I Q]. apply find_some in F' as [I' Q']. apply dim_eq_spec in Q, Q'. subst d d'.
    assert (U : forallb (fun a => forallb (fun b => orb (negb (String.eqb (snd a) (snd b))) (dim_eq (fst a) (fst b))) named) named = true) by reflexivity.
    rewrite forallb_forall in U. specialize (U p I). cbv beta in U. rewrite forallb_forall in U. specialize (U p' I'). cbv beta in U. rewrite H, String.eqb_refl in U. apply dim_eq_spec. exact U.
  - exfalso. apply find_some in F as [I Q]. symmetry in H. revert H. apply fallback_not_named. exact I.
  - exfalso. apply find_some in F' as [I Q]. revert H. apply fallback_not_named. exact I.
  - apply fallback_inj. exact H.
Qed.
(* every named unit is shown by its name, and the dimensions multiply and divide as exponents do *)
Theorem C145_named : (forall p, In p named -> to_si_string (fst p) = snd p) /\ to_si_string Dimensionless = "dimensionless" /\ to_si_string Length = "m" /\ to_si_string Area = "(m)^2" /\ to_si_string Velocity = "m / s" /\
  (forall a b, ddiv (dmul a b) b = a /\ dmul a b = dmul b a /\ ddiv a a = Dimensionless).
Proof.
  split; [|repeat split; try reflexivity].
  - intros p I. cbn in I. repeat (destruct I as [<-|I]; [reflexivity|]). destruct I.
  - destruct a, b; unfold ddiv, dmul; cbn; f_equal; lia.
  - destruct a, b; unfold ddiv, dmul; cbn; f_equal; lia.
  - destruct a; unfold ddiv, dmul; cbn. unfold Dimensionless. f_equal; lia.
Qed.
(* the SI units, exponents in the order metre, kilogram, second, ampere, kelvin, mole, candela, radian, steradian *)
Theorem C145_si :
  to_si_string (Dim 0 0 (-1) 0 0 0 0 0 0) = "Hz" /\
  to_si_string (Dim 1 1 (-2) 0 0 0 0 0 0) = "N" /\
  to_si_string (Dim (-1) 1 (-2) 0 0 0 0 0 0) = "Pa" /\
  to_si_string (Dim 2 1 (-2) 0 0 0 0 0 0) = "J" /\
  to_si_string (Dim 2 1 (-3) 0 0 0 0 0 0) = "W" /\
  to_si_string (Dim 0 0 1 1 0 0 0 0 0) = "C" /\
  to_si_string (Dim 2 1 (-3) (-1) 0 0 0 0 0) = "V" /\
  to_si_string (Dim (-2) (-1) 4 2 0 0 0 0 0) = "F" /\
  to_si_string (Dim 2 1 (-3) (-2) 0 0 0 0 0) = "Ohm" /\
  to_si_string (Dim 0 0 0 0 0 0 1 0 1) = "lm" /\
  to_si_string (Dim (-2) 0 0 0 0 0 1 0 1) = "lm / m^2" /\
  to_si_string (Dim 0 1 (-3) 0 0 0 0 0 (-1)) = "W / m^2 sr" /\
  to_si_string (Dim 0 1 (-3) 0 0 0 0 0 0) = "W / m^2" /\
  to_si_string (Dim 2 1 (-3) 0 0 0 0 0 (-1)) = "W / sr" /\
  to_si_string (Dim (-2) 0 0 0 0 0 1 0 0) = "cd / m^2" /\
  to_si_string (Dim 1 0 0 0 0 0 0 0 0) = "m" /\
  to_si_string (Dim 0 1 0 0 0 0 0 0 0) = "Kg" /\
  to_si_string (Dim 0 0 1 0 0 0 0 0 0) = "s" /\
  to_si_string (Dim 0 0 0 1 0 0 0 0 0) = "A" /\
  to_si_string (Dim 0 0 0 0 1 0 0 0 0) = "K" /\
  to_si_string (Dim 0 0 0 0 0 1 0 0 0) = "mol" /\
  to_si_string (Dim 0 0 0 0 0 0 1 0 0) = "cd" /\
  to_si_string (Dim 0 0 0 0 0 0 0 1 0) = "rad" /\
  to_si_string (Dim 0 0 0 0 0 0 0 0 1) = "sr" /\
  to_si_string (Dim 1 0 (-1) 0 0 0 0 0 0) = "m / s" /\
  to_si_string (Dim (-3) 0 0 0 0 0 0 0 0) = "1 / (m)^3" /\
  to_si_string (Dim 0 0 0 0 0 0 0 0 0) = "dimensionless".
Proof. repeat split; reflexivity. Qed.
(* The number before the unit. A scalar quantity's number is its SI value to half a millionth ... *)
Local Open Scope R_scope.
Lemma Rabs_both x y : Rabs x <= y -> - y <= x <= y.
Proof. unfold Rabs. destruct (Rcase_abs x); lra. Qed.
Definition nearest (rnd : R -> Z) : Prop := forall x, Rabs (IZR (rnd x) - x) <= / 2.
Theorem C145_number : forall rnd d ratio value, nearest rnd -> Rabs (IZR (fst (quantity_text rnd d ratio value)) / 1000000 - value * ratio) <= / 2000000.
Proof.
  intros rnd d ratio value N. cbn [quantity_text fst]. specialize (N (value * ratio * 1000000)). set (z := IZR (rnd (value * ratio * 1000000))) in *. clearbody z.
  replace (z / 1000000 - value * ratio) with ((z - value * ratio * 1000000) * / 1000000) by field. rewrite Rabs_mult, (Rabs_right (/ 1000000)) by lra. lra.
Qed.
(* ... which is nothing for quantities below it: a nanometre is shown as 0 m, like two nanometres; and a spectral quantity is shown with the SI unit but with its numbers in its own scale, so that
   a kilowatt and a watt look alike *)
Theorem C145_refuted : (forall rnd d ratio value, nearest rnd -> Rabs (value * ratio) < / 2000000 -> fst (quantity_text rnd d ratio value) = 0%Z) /\
  (forall rnd d ratio values, spectral_text rnd d ratio values = spectral_text rnd d 1 values) /\
  (forall rnd, nearest rnd -> exists z, fst (spectral_text rnd Power 1000 [2]) = [z] /\ IZR z / 1000000 < 3 /\ snd (spectral_text rnd Power 1000 [2]) = "W"%string).
Proof.
  split; [|split].
  - intros rnd d ratio value N H. cbn [quantity_text fst]. specialize (N (value * ratio * 1000000)). set (z := rnd (value * ratio * 1000000)) in *. clearbody z.
    assert (B : Rabs (value * ratio * 1000000) < / 2) by (rewrite Rabs_mult, (Rabs_right 1000000) by lra; lra). apply Rabs_def2 in B. apply Rabs_both in N.
    assert (-1 < z < 1)%Z by (split; apply lt_IZR; lra). lia.
  - reflexivity.
  - intros rnd N. eexists. split; [reflexivity|]. split; [|reflexivity]. specialize (N (2 * 1000000)). set (z := rnd (2 * 1000000)) in *. clearbody z. apply Rabs_both in N. lra.
Qed.
Example C145_case : to_si_string (Dim 2 1 (-3) (-2) 0 0 0 0 0) = "Ohm"%string /\ to_si_string (Dim 1 0 0 0 0 2 (-1) 0 0) = "m(mol)^2 / cd"%string.
Proof. split; reflexivity. Qed.
Print Assumptions C145_unit_text. Print Assumptions C145_named. Print Assumptions C145_number. Print Assumptions C145_refuted.
