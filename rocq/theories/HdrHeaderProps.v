(* What a Radiance file must look like for the decoder to accept it (C45). *)
From Coq Require Import Reals.
From Verif Require Import Common Bytes DecodeModel DecodeSpec DecodeProofs HdrProofs DecodeProps.
Open Scope Z_scope.

Definition blank (c : Z) : Prop := c = 32 \/ 9 <= c <= 13.
Definition sign (c : Z) : Prop := c = 43 \/ c = 45.
(* an optional plus sign and decimal digits; a number of lines or columns is positive *)
Definition numeral (l : list Z) (v : Z) : Prop := decimal l v \/ exists ds, l = 43 :: ds /\ decimal ds v.
(* "±Y height ±X width", with anything after the width that does not continue the number *)
Definition resolution_line (l : list Z) (w h : Z) : Prop := exists sy sx b1 hs b2 b3 ws rest,
  l = [sy; 89] ++ b1 ++ hs ++ b2 ++ [sx; 88] ++ b3 ++ ws ++ rest /\ sign sy /\ sign sx /\
  Forall blank b1 /\ Forall blank b2 /\ Forall blank b3 /\ numeral hs h /\ numeral ws w /\ 0 < h < 2 ^ 31 /\ 0 < w < 2 ^ 31.

Lemma is_space_iff c : is_space c = true <-> blank c.
Proof. unfold is_space, blank. lia. Qed.
Lemma skip_ws_split l : exists b, Forall blank b /\ l = b ++ skip_ws l.
Proof.
  induction l as [|c l (b & F & E)]; cbn [skip_ws]; [exists []; auto|]. destruct (is_space c) eqn:S; [|exists []; auto].
  exists (c :: b). split; [constructor; auto; apply is_space_iff; auto|]. cbn. f_equal. exact E.
Qed.
Lemma digits_split l : forall acc v r, digits l acc = (v, r) -> exists ds, l = ds ++ r /\ Forall (fun c => 48 <= c <= 57) ds /\ fold_left (fun a c => a * 10 + (c - 48)) ds acc = v.
Proof.
  induction l as [|c l IH]; cbn [digits]; intros acc v r E; [injection E as <- <-; exists []; auto|].
  destruct (is_digit c) eqn:D; [|injection E as <- <-; exists []; auto]. destruct (IH _ _ _ E) as (ds & -> & F & G). exists (c :: ds). split; [reflexivity|]. split; [constructor; auto; unfold is_digit in D; lia|exact G].
Qed.
Lemma digits_mono ds : forall acc, Forall (fun c => 48 <= c <= 57) ds -> 0 <= acc -> 0 <= fold_left (fun a c => a * 10 + (c - 48)) ds acc.
Proof. induction ds as [|d ds IH]; intros acc F A; cbn; auto. inversion F; subst. apply IH; auto. lia. Qed.
Lemma scan_int_split l v r : scan_int l = Some (v, r) -> 0 < v -> exists b n, l = b ++ n ++ r /\ Forall blank b /\ numeral n v /\ v < 2 ^ 31.
Proof.
  unfold scan_int. cbv zeta. destruct (skip_ws_split l) as (b & F & E). set (m := skip_ws l) in *. clearbody m. subst l. intros H P. exists b.
  assert (K : forall sg t, (match t with c :: _ => if is_digit c then let '(v, rest) := digits t 0 in if ((- 2 ^ 31 <=? sg * v) && (sg * v <? 2 ^ 31)) then Some (sg * v, rest) else None else None | [] => None end) = Some (v, r) ->
    exists ds, t = ds ++ r /\ ds <> [] /\ Forall (fun c => 48 <= c <= 57) ds /\ sg * fold_left (fun a c => a * 10 + (c - 48)) ds 0 = v /\ v < 2 ^ 31).
  { intros sg [|c t] Q; [discriminate|]. destruct (is_digit c) eqn:D; [|discriminate]. destruct (digits (c :: t) 0) as (x, y) eqn:X.
    destruct (digits_split _ _ _ _ X) as (ds & E1 & E2 & E3). destruct (_ && _) eqn:B; [|discriminate]. injection Q as Q1 Q2. subst y. exists ds. split; auto.
    split. { intros ->. cbn [digits] in X. rewrite D in X. cbn in E1. destruct (digits_split _ _ _ _ X) as (dd & L1 & L2 & L3). rewrite <- E1 in L1. apply (f_equal (@List.length Z)) in L1. cbn in L1. rewrite app_length in L1. cbn in L1. lia. }
    split; auto. split; [rewrite E3; auto|]. lia. }
  assert (V : match m with 45 :: t => False | 43 :: t => exists ds, t = ds ++ r /\ decimal ds v /\ v < 2 ^ 31 | _ => exists ds, m = ds ++ r /\ decimal ds v /\ v < 2 ^ 31 end).
  { assert (N : forall m', (let '(sg, l) := (1, m') in match l with c :: _ => if is_digit c then let '(v, rest) := digits l 0 in if ((- 2 ^ 31 <=? sg * v) && (sg * v <? 2 ^ 31)) then Some (sg * v, rest) else None else None | [] => None end) = Some (v, r) ->
      exists ds, m' = ds ++ r /\ decimal ds v /\ v < 2 ^ 31).
    { intros m' Q. destruct (K 1 m' Q) as (ds & A1 & A2 & A3 & A4 & A5). exists ds. split; auto. split; [repeat split; auto; lia|auto]. }
    destruct m as [|c m]; [exact (N [] H)|].
    assert (C : c = 45 \/ c = 43 \/ (c <> 45 /\ c <> 43)) by lia. destruct C as [-> | [-> | (C1 & C2)]].
    - destruct (K (-1) m H) as (ds & A1 & A2 & A3 & A4 & A5). pose proof (digits_mono ds 0 A3 ltac:(lia)). lia.
    - exact (N m H).
    - assert (Q : (match c :: m with 45 :: t => (-1, t) | 43 :: t => (1, t) | _ => (1, c :: m) end) = (1, c :: m)).
      { destruct c as [|q|q]; try reflexivity. repeat (destruct q as [q|q|]; try reflexivity); congruence. }
      rewrite Q in H. pose proof (N (c :: m) H) as R. destruct c as [|q|q]; auto. repeat (destruct q as [q|q|]; auto); congruence. }
  assert (W : exists n, m = n ++ r /\ numeral n v /\ v < 2 ^ 31).
  { destruct m as [|c m]; [destruct V as (ds & A & B & C); exists ds; repeat split; auto; left; auto|].
    assert (C : c = 45 \/ c = 43 \/ (c <> 45 /\ c <> 43)) by lia. destruct C as [-> | [-> | (C1 & C2)]]; [destruct V| |].
    - destruct V as (ds & A & B & C). exists (43 :: ds). split; [cbn; f_equal; auto|]. split; auto. right. eauto.
    - assert (V' : exists ds, c :: m = ds ++ r /\ decimal ds v /\ v < 2 ^ 31) by (destruct c as [|q|q]; auto; repeat (destruct q as [q|q|]; auto); congruence).
      destruct V' as (ds & A & B & C). exists ds. repeat split; auto. left; auto. }
  destruct W as (n & W1 & W2 & W3). exists n. rewrite W1. auto.
Qed.
Lemma token_split l : forall p r, token l = (p, r) -> l = p ++ r.
Proof.
  induction l as [|c l IH]; cbn [token]; intros p r E; [injection E as <- <-; reflexivity|].
  destruct (is_space c); [injection E as <- <-; reflexivity|]. destruct (token l) as (a, r') eqn:X. injection E as <- <-. cbn. f_equal. apply IH. reflexivity.
Qed.
Lemma scan_token_split l p r : scan_token l = Some (p, r) -> exists b, l = b ++ p ++ r /\ Forall blank b.
Proof.
  unfold scan_token. intros E. destruct (skip_ws_split l) as (b & F & S). exists b. split; auto. rewrite S at 1. f_equal.
  destruct (token (skip_ws l)) as ([|c p'], r') eqn:X; [discriminate|]. injection E as <- <-. apply token_split. exact X.
Qed.
Lemma parse_resolution_sound l sy sx w h : sign sy -> sign sx -> parse_resolution l [sy; 89] [sx; 88] = Some (h, w) -> 0 < w -> 0 < h -> resolution_line l w h.
Proof.
  intros SY SX E W H. unfold parse_resolution in E. destruct (list_eq_dec Z.eq_dec (firstn 2 l) [sy; 89]) as [P|]; [|discriminate].
  destruct (scan_int (skipn 2 l)) as [(h', r1)|] eqn:E1; [|discriminate]. destruct (scan_token r1) as [(p, r2)|] eqn:E2; [|discriminate].
  destruct (scan_int r2) as [(w', r3)|] eqn:E3; [|discriminate]. destruct (list_eq_dec Z.eq_dec p [sx; 88]) as [->|]; [|discriminate]. injection E as -> ->.
  destruct (scan_int_split _ _ _ E1 H) as (b1 & hs & D1 & F1 & N1 & L1). destruct (scan_token_split _ _ _ E2) as (b2 & D2 & F2). destruct (scan_int_split _ _ _ E3 W) as (b3 & ws & D3 & F3 & N3 & L3).
  exists sy, sx, b1, hs, b2, b3, ws, r3. split; [|repeat split; auto].
  rewrite <- (firstn_skipn 2 l), P, D1, D2, D3. reflexivity.
Qed.
Lemma read_line_sound d : forall fuel cur acc ok l c, 0 <= cur <= asz d -> read_line fuel d cur acc = Ok (ok, l, c) ->
  exists l', l = acc ++ l' /\ text_line l' /\ has d cur l' /\ cur <= c <= asz d /\ (c = asz d \/ cur < c /\ (aget d (c - 1) = 10 \/ aget d (c - 1) = 13)) /\ (ok = false -> c = asz d) /\ (ok = true -> acc = [] -> cur < asz d).
Proof.
  induction fuel as [|k IH]; intros cur acc ok l c B E; cbn [read_line] in E; destruct (Z.leb_spec (asz d) cur) as [L|L].
  1,3: injection E as <- <- <-; exists []; rewrite app_nil_r; split; [auto|]; split; [constructor|]; split; [split; [lia|]; split; [cbn; lia|intros [|i] v Q; discriminate]|];
       split; [lia|]; split; [left; lia|]; split; [intros; lia|intros Q ->; discriminate].
  - discriminate.
  - unfold rd in E. replace ((0 <=? cur) && (cur <? asz d)) with true in E by lia. cbn [obind] in E.
    assert (NIL : has d cur []) by (split; [lia|]; split; [cbn; lia|intros [|i] v Q; discriminate]).
    destruct (Z.eqb_spec (aget d cur) 10) as [T|T].
    { injection E as <- <- <-. exists []. rewrite app_nil_r. split; [auto|]. split; [constructor|]. split; [exact NIL|]. split; [lia|]. split; [right; split; [lia|left; rewrite Z.add_simpl_r; auto]|]. split; [discriminate|]. intros; lia. }
    destruct (Z.eqb_spec (aget d cur) 13) as [U|U].
    { destruct (Z.leb_spec (asz d) (cur + 1)).
      - injection E as <- <- <-. exists []. rewrite app_nil_r. split; [auto|]. split; [constructor|]. split; [exact NIL|]. split; [lia|]. split; [left; lia|]. split; [discriminate|]. intros; lia.
      - replace ((0 <=? cur + 1) && (cur + 1 <? asz d)) with true in E by lia. cbn [obind] in E. destruct (Z.eqb_spec (aget d (cur + 1)) 10) as [N|N]; injection E as <- <- <-;
        (exists []; rewrite app_nil_r; split; [auto|]; split; [constructor|]; split; [exact NIL|]; split; [lia|]; split; [right; split; [lia|]|split; [discriminate|intros; lia]]).
        + left. replace (cur + 2 - 1) with (cur + 1) by lia. auto.
        + right. rewrite Z.add_simpl_r. auto. }
    apply IH in E; [|lia]. destruct E as (l' & -> & T' & H & C1 & C2 & C3 & C4). exists (aget d cur :: l'). split; [rewrite <- app_assoc; reflexivity|]. split; [constructor; auto|].
    split; [|split; [lia|split; [destruct C2; [auto|right; split; [lia|tauto]]|split; [auto|intros; lia]]]].
    destruct H as (H1 & H2 & H3). split; [lia|]. split; [cbn [List.length]; lia|]. intros [|i] v Q; cbn in Q; [injection Q as <-; f_equal; lia|]. rewrite <- (H3 _ _ Q). f_equal. lia.
Qed.
Lemma get_line_sound d cur ok l c : 0 <= cur <= asz d -> get_line d cur = Ok (ok, l, c) ->
  text_line l /\ has d cur l /\ cur <= c <= asz d /\ (c = asz d \/ cur < c /\ (aget d (c - 1) = 10 \/ aget d (c - 1) = 13)) /\ (ok = true -> cur < asz d).
Proof.
  intros B E. destruct (read_line_sound d _ _ _ _ _ _ B E) as (l' & -> & A1 & A2 & A3 & A4 & A5 & A6). cbn. tauto.
Qed.
Definition at_line_start (d : arr) (p : Z) : Prop := 0 < p /\ (aget d (p - 1) = 10 \/ aget d (p - 1) = 13).
Lemma skip_header_sound d : forall fuel cur c, 0 <= cur <= asz d -> (cur = asz d \/ at_line_start d cur) -> skip_header fuel d cur = Ok c -> cur <= c <= asz d /\ (c = asz d \/ at_line_start d c).
Proof.
  induction fuel as [|k IH]; intros cur c B P E; cbn [skip_header] in E; [discriminate|].
  destruct (get_line d cur) as [((ok, l), c')| |] eqn:G; cbn [obind] in E; try discriminate.
  destruct (get_line_sound _ _ _ _ _ B G) as (A1 & A2 & A3 & A4 & A5).
  assert (A : cur <= c' <= asz d /\ (c' = asz d \/ at_line_start d c')). { split; auto. destruct A4; auto. right. split; [lia|tauto]. }
  destruct ok; cbn [negb] in E; [|injection E as <-; auto]. destruct l; [injection E as <-; auto|]. apply IH in E; [|lia|tauto]. split; [lia|tauto].
Qed.
(* every accepted file, whatever else it contains: it starts with "#?", and some later line of it is a resolution line naming exactly the decoded size *)
Theorem C45_header : forall d w h o, byte_data d -> read_hdr d = Ok (w, h, o) ->
  has d 0 [35; 63] /\ exists p l, at_line_start d p /\ has d p l /\ text_line l /\ resolution_line l w h.
Proof.
  intros d w h o B E. destruct (proj2 (C45_memory_safe d B) _ _ _ E) as (W & H & _). unfold read_hdr in E. assert (Z0 : 0 <= 0 <= asz d) by (destruct B; lia).
  destruct (get_line d 0) as [((ok, l), c)| |] eqn:G1; cbn [obind] in E; try discriminate. destruct (get_line_sound _ _ _ _ _ Z0 G1) as (A1 & A2 & A3 & A4 & A5).
  destruct ok; cbn [negb] in E; [|discriminate]. destruct (list_eq_dec Z.eq_dec (firstn 2 l) [35; 63]) as [M|]; cbn [negb] in E; [|discriminate].
  destruct (skip_header _ d c) as [c2| |] eqn:G2; cbn [obind] in E; try discriminate.
  apply skip_header_sound in G2; [|lia|destruct A4 as [A4|A4]; [left; exact A4|right; exact A4]]. destruct G2 as (S1 & S2).
  destruct (get_line d c2) as [((ok2, l2), c3)| |] eqn:G3; cbn [obind] in E; try discriminate. destruct (get_line_sound d c2 _ _ _ ltac:(lia) G3) as (B1 & B2 & B3 & B4 & B5).
  destruct ok2; cbn [negb] in E; [|discriminate]. specialize (B5 eq_refl). cbv zeta in E.
  split. { rewrite <- (firstn_skipn 2 l), M in A2. apply (has_app d 0 [35; 63]) in A2. tauto. }
  exists c2, l2. split; [destruct S2; [lia|auto]|]. split; auto. split; auto.
  assert (R : exists sy sx h' w', sign sy /\ sign sx /\ parse_resolution l2 [sy; 89] [sx; 88] = Some (h', w') /\ obind (read_hdr_rows d w' h' c3) (fun out => Ok (w', h', out)) = Ok (w, h, o)).
  { unfold minusY, plusY, minusX, plusX in E.
    destruct (parse_resolution l2 [45; 89] [43; 88]) as [(h', w')|] eqn:Q1; [exists 45, 43, h', w'; unfold sign; auto|].
    destruct (parse_resolution l2 [43; 89] [43; 88]) as [(h', w')|] eqn:Q2; [exists 43, 43, h', w'; unfold sign; auto|].
    destruct (parse_resolution l2 [45; 89] [45; 88]) as [(h', w')|] eqn:Q3; [exists 45, 45, h', w'; unfold sign; auto|].
    destruct (parse_resolution l2 [43; 89] [45; 88]) as [(h', w')|] eqn:Q4; [exists 43, 45, h', w'; unfold sign; auto|discriminate]. }
  destruct R as (sy & sx & h' & w' & SY & SX & P & Q). destruct (read_hdr_rows d w' h' c3) as [out| |]; cbn [obind] in Q; try discriminate.
  assert (QW : w' = w) by congruence. assert (QH : h' = h) by congruence. subst w' h'. exact (parse_resolution_sound _ _ _ _ _ SY SX P W H).
Qed.
Print Assumptions C45_header.
(* the hypothesis is met by the example file of DecodeProps *)
Example C45_header_case : exists o, read_hdr (of_list hdr_bytes_example) = Ok (2, 2, o).
Proof.
  destruct C45_nonvacuous as (B & T & D & F & H). destruct (C45_round_trip _ [82] [] [50] [50] 2 hdr_rows_example B T (Forall_nil _) (Forall_nil _) D D ltac:(lia) ltac:(cbn; lia) F H) as (o & E & _).
  exists o. exact E.
Qed.
