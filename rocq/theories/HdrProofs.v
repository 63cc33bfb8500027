(* Lemmas about the Radiance HDR decoder. *)
From Verif Require Import Common DecodeModel DecodeSpec DecodeProofs.
From Coq Require Import Psatz Reals.
Open Scope Z_scope.

(** Safety *)
Lemma hdr_run_safe v w ch : 0 <= ch < 4 -> forall n pos line, 0 <= pos -> asz line = 4 * w ->
  trip Total (fun r => asz (snd r) = asz line /\ pos <= fst r) (hdr_run n v w ch pos line).
Proof.
  intros C n. induction n as [|n IH]; intros pos line P S; cbn [hdr_run]; [cbn; split; auto; lia|].
  destruct (Z.ltb_spec pos w); [|cbn; split; auto; lia]. rewrite wr_ok by lia. cbn [obind].
  eapply trip_conseq; [apply IH; cbn [asz]; auto; lia|]. intros (a, b) (E1 & E2). cbn [fst snd asz] in *. split; auto; lia.
Qed.
Lemma hdr_literal_safe data w ch : 0 <= asz data -> 0 <= ch < 4 -> forall n cur pos line, 0 <= cur <= asz data -> 0 <= pos -> asz line = 4 * w ->
  trip Safe (fun r => let '(cur', pos', line') := r in asz line' = asz line /\ pos <= pos' /\ cur <= cur' <= asz data) (hdr_literal n data w ch cur pos line).
Proof.
  intros D0 C n. induction n as [|n IH]; intros cur pos line CU P S; cbn [hdr_literal]; [cbn; repeat split; auto; lia|].
  destruct (Z.ltb_spec pos w); [|cbn; repeat split; auto; lia].
  apply trip_check; [discriminate|]. intros L. rewrite rd_ok by lia. cbn [obind]. rewrite wr_ok by lia. cbn [obind].
  eapply trip_conseq; [apply IH; cbn [asz]; auto; lia|]. intros ((a, b), e) (E1 & E2 & E3). cbn [asz] in *. repeat split; auto; lia.
Qed.
Lemma hdr_channel_safe data w ch : byte_data data -> 0 <= ch < 4 -> forall fuel cur pos line, 0 <= cur <= asz data -> asz data - cur < Z.of_nat fuel -> 0 <= pos -> asz line = 4 * w ->
  trip Safe (fun r => asz (snd r) = asz line /\ cur <= fst r <= asz data) (hdr_channel fuel data w ch cur pos line).
Proof.
  intros B C fuel. induction fuel as [|fuel IH]; intros cur pos line CU FU P S; [lia|]. cbn [hdr_channel].
  destruct (Z.leb_spec w pos); [cbn; split; auto; lia|]. apply trip_check; [discriminate|]. intros L. rewrite rd_ok by lia. cbn [obind]. cbv zeta.
  apply trip_if; intros Hb.
  - apply trip_check; [discriminate|]. intros L2. rewrite rd_ok by lia. cbn [obind].
    eapply trip_bind; [|].
    { pose proof (hdr_run_safe (aget data (cur + 1)) w ch C (Z.to_nat (aget data cur - 128)) pos line P S) as T.
      instantiate (1 := fun r => asz (snd r) = asz line /\ pos <= fst r). destruct (hdr_run _ _ _ _ _ _); cbn in T |- *; auto; congruence. }
    intros (p', l') (E1 & E2). cbn [fst snd] in *. eapply trip_conseq; [apply IH; try lia; congruence|]. cbv beta. intros (a, b) (E3 & E4). cbn [fst snd] in *. split; [congruence|lia].
  - eapply trip_bind; [apply (hdr_literal_safe data w ch); auto; lia|]. intros ((c', p'), l') (E1 & E2 & E3).
    eapply trip_conseq; [apply IH; try lia; congruence|]. cbv beta. intros (a, b) (E4 & E5). cbn [fst snd] in *. split; [congruence|lia].
Qed.
Lemma hdr_scanline_safe data w cur line : byte_data data -> 0 < w -> 0 <= cur <= asz data -> asz line = 4 * w ->
  trip Safe (fun r => asz (snd r) = asz line /\ cur <= fst r <= asz data) (hdr_scanline data w cur line).
Proof.
  intros B W CU S. unfold hdr_scanline. apply trip_check; [discriminate|]. intros L. rewrite !rd_ok by lia. cbn [obind]. cbv zeta. apply trip_if; intros _.
  - eapply trip_conseq; [apply (trip_for Safe (fun _ s => asz (snd s) = asz line /\ cur + 4 <= fst s <= asz data))|].
    + cbn; split; auto; lia.
    + intros ch (c, l) Hc (E1 & E2). cbn [fst snd] in *. eapply trip_conseq; [apply hdr_channel_safe; auto; lia|]. intros (a, b) (E3 & E4). cbn [fst snd] in *. split; [congruence|lia].
    + cbv beta. intros (a, b) (E1 & E2). cbn [fst snd] in *. split; auto; lia.
  - rewrite (wr_ok line) by lia. cbn [obind]. rewrite wr_ok by (cbn [asz]; lia). cbn [obind asz aget]. rewrite wr_ok by (cbn [asz]; lia). cbn [obind asz aget]. rewrite wr_ok by (cbn [asz]; lia). cbn [obind asz aget].
    apply trip_if; intros W1.
    + apply trip_check; [discriminate|]. intros L2. eapply trip_bind; [apply copy_trip; cbn [asz]; intros _; lia|].
      intros o (E1 & _). cbn [trip fst snd asz] in *. split; [congruence|lia].
    + cbn. split; auto; lia.
Qed.
Lemma hdr_pixel_ok w y h line x out : 0 <= x < w -> 0 <= y < h -> asz line = 4 * w -> asz out = w * h * 3 ->
  trip Total (fun o => pixel_written out o ((y * w + x) * 3) 3 (fun c => rgbe (aget line (x * 4 + c)) (aget line (x * 4 + 3)))) (hdr_pixel w y line x out).
Proof.
  intros X Y SL SO. unfold hdr_pixel. rewrite !rd_ok by lia. cbn [obind]. cbv zeta.
  assert (DB : 0 <= y * w + x < w * h) by (clear - X Y; assert ((y + 1) * w <= h * w) by (apply Z.mul_le_mono_nonneg_r; lia); nia).
  destruct (src_bound (w * h) (y * w + x) 3 DB ltac:(lia)) as (B1 & B2). rewrite <- SO in B2.
  eapply trip_conseq; [apply write3; intros _; lia|]. intros o (E1 & E2 & E3). split; auto. split; auto.
  intros c Hc. rewrite E2 by auto. assert (c = 0 \/ c = 1 \/ c = 2) as [->|[->| ->]] by lia; reflexivity.
Qed.
Lemma hdr_row_pixels w h y line out : 0 < w -> 0 <= y < h -> asz line = 4 * w -> asz out = w * h * 3 ->
  trip Total (fun o => asz o = asz out /\ (forall x c, 0 <= x < w -> 0 <= c < 3 -> aget o ((y * w + x) * 3 + c) = rgbe (aget line (x * 4 + c)) (aget line (x * 4 + 3)))
                       /\ (forall j, j < y * w * 3 \/ (y + 1) * w * 3 <= j -> aget o j = aget out j))
    (for_ (Z.to_nat w) (hdr_pixel w y line) out).
Proof.
  intros W Y SL SO. apply (raster_row Total w 3 y (fun x c => rgbe (aget line (x * 4 + c)) (aget line (x * 4 + 3))) (hdr_pixel w y line) out); try lia.
  intros x o Hx So. apply (hdr_pixel_ok w y h); auto. congruence.
Qed.
Lemma weaken {A} s (P : A -> Prop) o : trip Total P o -> trip s P o.
Proof. destruct o; cbn; auto; congruence. Qed.
Lemma hdr_rows_safe data w h cur : byte_data data -> 0 <= cur <= asz data ->
  trip Safe (fun o => 0 < w /\ 0 < h /\ asz o = w * h * 3) (read_hdr_rows data w h cur).
Proof.
  intros B CU. unfold read_hdr_rows. apply trip_check; [discriminate|]. intros WH. apply orb_false_iff in WH. assert (0 < w) by lia. assert (0 < h) by lia. clear WH.
  eapply trip_bind.
  - apply (trip_for Safe (fun _ s => let '(c, l, o) := s in 0 <= c <= asz data /\ asz l = 4 * w /\ asz o = w * h * 3)).
    + cbn [asz]. lia.
    + intros y ((c, l), o) Hy (E1 & E2 & E3). eapply trip_bind; [apply hdr_scanline_safe; auto|]. intros (c', l') (E4 & E5). cbn [fst snd] in *.
      eapply trip_bind; [apply weaken; apply (hdr_row_pixels w h y l' o); auto; lia|]. intros o' (E6 & _). apply trip_ok. split; [lia|]. split; congruence.
  - intros ((c, l), o) (E1 & E2 & E3). apply trip_ok. cbn [snd]. auto.
Qed.
Lemma read_line_safe data : byte_data data -> forall fuel cur line, 0 <= cur <= asz data -> asz data - cur < Z.of_nat fuel ->
  trip Total (fun r => let '(ok, l, c) := r in cur <= c <= asz data /\ (ok = true -> line = [] -> cur < c)) (read_line fuel data cur line).
Proof.
  intros B fuel. induction fuel as [|fuel IH]; intros cur line CU FU; [lia|]. cbn [read_line]. destruct (Z.leb_spec (asz data) cur).
  - cbn. split; [lia|]. intros E ->. discriminate.
  - rewrite rd_ok by lia. cbn [obind]. destruct (aget data cur =? 10); [cbn; lia|]. destruct (aget data cur =? 13).
    + destruct (Z.leb_spec (asz data) (cur + 1)); [cbn; lia|]. rewrite rd_ok by lia. cbn. destruct (aget data (cur + 1) =? 10); lia.
    + eapply trip_conseq; [apply IH; lia|]. intros ((ok, l), c) (E1 & E2). split; lia.
Qed.
Lemma get_line_safe data cur : byte_data data -> 0 <= cur <= asz data ->
  trip Total (fun r => let '(ok, l, c) := r in cur <= c <= asz data /\ (ok = true -> cur < c)) (get_line data cur).
Proof.
  intros B CU. unfold get_line. eapply trip_conseq; [apply read_line_safe; auto; lia|]. intros ((ok, l), c) (E1 & E2). split; auto.
Qed.
Lemma skip_header_safe data : byte_data data -> forall fuel cur, 0 <= cur <= asz data -> asz data - cur < Z.of_nat fuel ->
  trip Total (fun c => cur <= c <= asz data) (skip_header fuel data cur).
Proof.
  intros B fuel. induction fuel as [|fuel IH]; intros cur CU FU; [lia|]. cbn [skip_header].
  eapply trip_bind; [apply get_line_safe; auto|]. intros ((ok, l), c) (E1 & E2). destruct ok; cbn [negb]; [|cbn; lia].
  specialize (E2 eq_refl). destruct l; [cbn; lia|]. eapply trip_conseq; [apply IH; lia|]. cbv beta. intros; lia.
Qed.
Lemma read_hdr_safe data : byte_data data -> trip Safe (fun r => let '(w, h, o) := r in 0 < w /\ 0 < h /\ asz o = w * h * 3) (read_hdr data).
Proof.
  intros B. unfold read_hdr. eapply trip_bind; [apply weaken; apply get_line_safe; auto; destruct B; lia|]. intros ((ok, l), c) (E1 & E2).
  apply trip_check; [discriminate|]. intros _. apply trip_check; [discriminate|]. intros _.
  eapply trip_bind; [apply weaken; apply skip_header_safe; auto; lia|]. cbv beta. intros c2 E3.
  eapply trip_bind; [apply weaken; apply get_line_safe; auto; lia|]. intros ((ok2, l2), c3) (E4 & E5).
  apply trip_check; [discriminate|]. intros _. cbv zeta.
  match goal with |- trip _ _ (match ?r with _ => _ end) => destruct r as [(h, w)|] end; [|cbn; discriminate].
  eapply trip_bind; [apply hdr_rows_safe; auto; lia|]. intros o (E6 & E7 & E8). cbn. auto.
Qed.

(** Decoding of encoded rows *)
Lemma hdr_run_ok v w ch : 0 <= ch < 4 -> forall n pos line, 0 <= pos -> pos + Z.of_nat n <= w -> asz line = 4 * w ->
  trip Total (fun r => fst r = pos + Z.of_nat n /\ asz (snd r) = asz line
      /\ (forall x, pos <= x < pos + Z.of_nat n -> aget (snd r) (x * 4 + ch) = v)
      /\ (forall j, (forall x, pos <= x < pos + Z.of_nat n -> j <> x * 4 + ch) -> aget (snd r) j = aget line j)) (hdr_run n v w ch pos line).
Proof.
  intros C n. induction n as [|n IH]; intros pos line P Q S; cbn [hdr_run].
  - cbn. split; [lia|]. split; auto. split; [intros; lia|auto].
  - replace (pos <? w) with true by lia. rewrite wr_ok by lia. cbn [obind].
    eapply trip_conseq; [apply IH; cbn [asz]; auto; lia|]. intros (p', l') (E1 & E2 & E3 & E4). cbn [fst snd asz aget] in *. split; [lia|]. split; [auto|]. split.
    + intros x Hx. destruct (Z.eq_dec x pos) as [->|N]; [|apply E3; lia]. rewrite E4 by (intros; lia). rewrite Z.eqb_refl. reflexivity.
    + intros j Hj. rewrite E4 by (intros; apply Hj; lia). replace (j =? pos * 4 + ch) with false; auto. symmetry. apply Z.eqb_neq. apply Hj. lia.
Qed.
Lemma hdr_literal_ok data w ch : 0 <= ch < 4 -> forall vs cur pos line, has data cur vs -> 0 <= pos -> pos + Z.of_nat (List.length vs) <= w -> asz line = 4 * w ->
  trip Total (fun r => let '(cur', pos', line') := r in cur' = cur + Z.of_nat (List.length vs) /\ pos' = pos + Z.of_nat (List.length vs) /\ asz line' = asz line
      /\ (forall x, pos <= x < pos + Z.of_nat (List.length vs) -> aget line' (x * 4 + ch) = nth (Z.to_nat (x - pos)) vs 0)
      /\ (forall j, (forall x, pos <= x < pos + Z.of_nat (List.length vs) -> j <> x * 4 + ch) -> aget line' j = aget line j)) (hdr_literal (List.length vs) data w ch cur pos line).
Proof.
  intros C vs. induction vs as [|v vs IH]; intros cur pos line H P Q S; cbn [List.length hdr_literal].
  - cbn. split; [lia|]. split; [lia|]. split; auto. split; [intros; lia|auto].
  - cbn [List.length] in Q. replace (pos <? w) with true by lia. pose proof (has_len _ _ _ H) as (L0 & L1). cbn [List.length] in L1.
    apply trip_check; [intros; lia|]. intros _. rewrite rd_ok by lia. cbn [obind].
    pose proof (has_nth data cur (v :: vs) 0 H ltac:(cbn; lia)) as E0. cbn [nth] in E0. replace (cur + Z.of_nat 0) with cur in E0 by lia. rewrite E0.
    rewrite wr_ok by lia. cbn [obind].
    assert (H' : has data (cur + 1) vs) by (apply (has_app data cur [v] vs) in H; apply H).
    eapply trip_conseq; [apply IH; cbn [asz]; auto; lia|]. intros ((c', p'), l') (E1 & E2 & E3 & E4 & E5). cbn [asz aget] in *. split; [lia|]. split; [lia|]. split; [auto|]. split.
    + intros x Hx. destruct (Z.eq_dec x pos) as [->|N].
      * rewrite E5 by (intros; lia). rewrite Z.eqb_refl. replace (Z.to_nat (pos - pos)) with 0%nat by lia. reflexivity.
      * rewrite E4 by lia. replace (Z.to_nat (x - pos)) with (Datatypes.S (Z.to_nat (x - (pos + 1)))) by lia. reflexivity.
    + intros j Hj. rewrite E5 by (intros; apply Hj; lia). replace (j =? pos * 4 + ch) with false; auto. symmetry. apply Z.eqb_neq. apply Hj. lia.
Qed.
Lemma hdr_channel_ok data w ch : byte_data data -> 0 <= ch < 4 -> forall cs, Forall chunk_ok cs -> forall fuel cur pos line,
  has data cur (List.concat (map chunk_bytes cs)) -> 0 <= pos -> pos + Z.of_nat (List.length (channel_values cs)) = w -> asz line = 4 * w -> (List.length cs < fuel)%nat ->
  trip Total (fun r => fst r = cur + Z.of_nat (List.length (List.concat (map chunk_bytes cs))) /\ asz (snd r) = asz line
      /\ (forall x, pos <= x < w -> aget (snd r) (x * 4 + ch) = nth (Z.to_nat (x - pos)) (channel_values cs) 0)
      /\ (forall j, (forall x, pos <= x < w -> j <> x * 4 + ch) -> aget (snd r) j = aget line j)) (hdr_channel fuel data w ch cur pos line).
Proof.
  intros B C cs F. induction F as [|k cs OK F IH]; intros fuel cur pos line H P Q S FU; (destruct fuel as [|fuel]; [cbn in FU; lia|]); unfold channel_values in *; cbn [map List.concat List.length] in *.
  - cbn [hdr_channel]. replace (w <=? pos) with true by lia. cbn. split; [lia|]. split; auto. split; [intros; lia|auto].
  - rewrite app_length in Q |- *. apply has_app in H. destruct H as (H1 & H2). cbn [hdr_channel].
    assert (NV : (1 <= List.length (chunk_values k))%nat) by (destruct k; cbn in OK |- *; [rewrite repeat_length|]; lia).
    replace (w <=? pos) with false by lia.
    destruct k as [n v|vs]; cbn [chunk_bytes chunk_values chunk_ok] in *.
    + pose proof (has_len _ _ _ H1) as (L0 & L1). cbn [List.length] in L1, H2 |- *. rewrite repeat_length in *.
      apply trip_check; [intros; lia|]. intros _. rewrite rd_ok by lia. cbn [obind].
      pose proof (has_nth data cur _ 0 H1 ltac:(cbn; lia)) as E0. cbn [nth] in E0. replace (cur + Z.of_nat 0) with cur in E0 by lia.
      pose proof (has_nth data cur _ 1 H1 ltac:(cbn; lia)) as E1. cbn [nth] in E1. replace (cur + Z.of_nat 1) with (cur + 1) in E1 by lia.
      rewrite E0. cbv zeta. replace (128 <? 128 + Z.of_nat n) with true by lia. apply trip_check; [intros; lia|]. intros _. rewrite rd_ok by lia. cbn [obind]. rewrite E1.
      replace (Z.to_nat (128 + Z.of_nat n - 128)) with n by lia.
      eapply trip_bind; [apply hdr_run_ok; auto; lia|]. intros (p', l') (R1 & R2 & R3 & R4). cbn [fst snd] in *. subst p'.
      eapply trip_conseq; [apply (IH fuel (cur + 1 + 1) (pos + Z.of_nat n) l')|].
      * replace (cur + 1 + 1) with (cur + Z.of_nat 2) by lia. exact H2.
      * lia.
      * lia.
      * congruence.
      * lia.
      * cbv beta. intros (c', l2) (G1 & G2 & G3 & G4). cbn [fst snd] in *. split; [lia|]. split; [congruence|]. split.
        -- intros x Hx. destruct (Z_lt_le_dec x (pos + Z.of_nat n)) as [Lx|Lx].
           ++ rewrite G4 by (intros; lia). rewrite R3 by lia. rewrite app_nth1 by (rewrite repeat_length; lia). rewrite nth_repeat_lt' by lia. reflexivity.
           ++ rewrite G3 by lia. rewrite app_nth2 by (rewrite repeat_length; lia). rewrite repeat_length. f_equal. lia.
        -- intros j Hj. rewrite G4 by (intros; apply Hj; lia). apply R4. intros; apply Hj; lia.
    + pose proof (has_len _ _ _ H1) as (L0 & L1). cbn [List.length] in L1, H2 |- *.
      apply trip_check; [intros; lia|]. intros _. rewrite rd_ok by lia. cbn [obind].
      pose proof (has_nth data cur _ 0 H1 ltac:(cbn; lia)) as E0. cbn [nth] in E0. replace (cur + Z.of_nat 0) with cur in E0 by lia.
      rewrite E0. cbv zeta. replace (128 <? Z.of_nat (List.length vs)) with false by lia. rewrite Nat2Z.id.
      assert (H1b : has data (cur + 1) vs) by (apply (has_app data cur [Z.of_nat (List.length vs)] vs) in H1; apply H1).
      eapply trip_bind; [apply (hdr_literal_ok data w ch C vs); auto; lia|]. intros ((c1, p'), l') (R0 & R1 & R2 & R3 & R4). subst p' c1.
      eapply trip_conseq; [apply (IH fuel (cur + 1 + Z.of_nat (List.length vs)) (pos + Z.of_nat (List.length vs)) l')|].
      * replace (cur + 1 + Z.of_nat (List.length vs)) with (cur + Z.of_nat (Datatypes.S (List.length vs))) by lia. exact H2.
      * lia.
      * lia.
      * congruence.
      * lia.
      * cbv beta. intros (c', l2) (G1 & G2 & G3 & G4). cbn [fst snd] in *. split; [lia|]. split; [congruence|]. split.
        -- intros x Hx. destruct (Z_lt_le_dec x (pos + Z.of_nat (List.length vs))) as [Lx|Lx].
           ++ rewrite G4 by (intros; lia). rewrite R3 by lia. rewrite app_nth1 by lia. reflexivity.
           ++ rewrite G3 by lia. rewrite app_nth2 by lia. f_equal. lia.
        -- intros j Hj. rewrite G4 by (intros; apply Hj; lia). apply R4. intros; apply Hj; lia.
Qed.
Lemma chunk_count cs : (List.length cs <= List.length (List.concat (map chunk_bytes cs)))%nat.
Proof. induction cs as [|k cs IH]; cbn; [lia|]. rewrite app_length. destruct k; cbn; lia. Qed.
Lemma has_cons (d : arr) p v l : has d p (v :: l) -> aget d p = v /\ has d (p + 1) l.
Proof.
  intros H. pose proof (has_nth d p (v :: l) 0 H ltac:(cbn; lia)) as E. cbn [nth] in E. replace (p + Z.of_nat 0) with p in E by lia. split; auto.
  apply (has_app d p [v] l) in H. apply H.
Qed.
Definition before {A} (f : A -> list Z) (ls : list A) (i : nat) : Z := Z.of_nat (List.length (List.concat (map f (firstn i ls)))).
Lemma has_part {A} (f : A -> list Z) (d : arr) p ls i x : has d p (List.concat (map f ls)) -> nth_error ls i = Some x ->
  has d (p + before f ls i) (f x) /\ before f ls (Datatypes.S i) = before f ls i + Z.of_nat (List.length (f x)).
Proof.
  revert p i. induction ls as [|a ls IH]; intros p i H E; [destruct i; discriminate|]. cbn [map List.concat] in H. apply has_app in H. destruct H as (H1 & H2).
  destruct i as [|i]; cbn [nth_error] in E.
  - injection E as <-. unfold before. cbn. rewrite app_nil_r. split; [|lia]. rewrite Z.add_0_r. auto.
  - destruct (IH _ _ H2 E) as (G1 & G2). unfold before in *. cbn [firstn map List.concat] in *. rewrite !app_length, !Nat2Z.inj_add in *.
    split; [rewrite Z.add_assoc; exact G1|]. rewrite G2. lia.
Qed.
Lemma before_all {A} (f : A -> list Z) ls i : (List.length ls <= i)%nat -> before f ls i = Z.of_nat (List.length (List.concat (map f ls))).
Proof. intros H. unfold before. rewrite firstn_all2; auto. Qed.
Lemma hdr_scanline_ok data w cur line row : byte_data data -> 0 < w -> hdr_row_ok w row -> has data cur (hdr_row_bytes w row) -> asz line = 4 * w ->
  trip Total (fun r => fst r = cur + Z.of_nat (List.length (hdr_row_bytes w row)) /\ asz (snd r) = asz line
       /\ forall x k, 0 <= x < w -> 0 <= k < 4 -> aget (snd r) (x * 4 + k) = hdr_value row x k) (hdr_scanline data w cur line).
Proof.
  intros B W OK H S. destruct row as [chs|px]; cbn [hdr_row_ok hdr_row_bytes hdr_value] in *.
  - destruct OK as (L4 & F & W2). cbn [app] in *.
    pose proof (has_len _ _ _ H) as (L0 & L1). cbn [List.length] in L1.
    apply has_cons in H. destruct H as (A0 & H). apply has_cons in H. destruct H as (A1 & H). apply has_cons in H. destruct H as (A2 & H). apply has_cons in H. destruct H as (A3 & H).
    unfold hdr_scanline. apply trip_check; [intros; lia|]. intros _. rewrite !rd_ok by lia. cbn [obind]. cbv zeta.
    replace (cur + 1 + 1) with (cur + 2) in * by lia. replace (cur + 2 + 1) with (cur + 3) in * by lia. replace (cur + 3 + 1) with (cur + 4) in * by lia.
    rewrite A0, A1, A2, A3. change (2 =? 2) with true. replace (w / 256 * 256 + w mod 256 =? w) with true by (clear; lia). cbn [andb].
    cbn [List.length].
    set (f := fun c => List.concat (map chunk_bytes c)) in *.
    eapply trip_conseq; [apply (trip_for Total (fun ch s => fst s = cur + 4 + before f chs (Z.to_nat ch) /\ asz (snd s) = asz line
       /\ forall x k, 0 <= x < w -> 0 <= k < ch -> aget (snd s) (x * 4 + k) = nth (Z.to_nat x) (channel_values (nth (Z.to_nat k) chs [])) 0))|].
    + cbn [fst snd]. split; [unfold before; cbn; lia|]. split; [auto|]. intros; lia.
    + intros ch (c, l) Hc (E1 & E2 & E3). cbn [fst snd] in *. subst c.
      assert (NE : nth_error chs (Z.to_nat ch) = Some (nth (Z.to_nat ch) chs [])) by (apply nth_error_nth'; lia).
      destruct (has_part f data (cur + 4) chs _ _ H NE) as (HP & HB).
      assert (FC : Forall chunk_ok (nth (Z.to_nat ch) chs []) /\ Z.of_nat (List.length (channel_values (nth (Z.to_nat ch) chs []))) = w).
      { eapply Forall_forall in F; [exact F|]. eapply nth_error_In; eauto. }
      destruct FC as (FC & VC). unfold f in HP at 2.
      pose proof (has_len _ _ _ HP) as (N0 & N1). pose proof (chunk_count (nth (Z.to_nat ch) chs [])) as KC.
      eapply trip_conseq; [apply (hdr_channel_ok data w ch B ltac:(lia) _ FC); auto; try lia|].
      intros (c', l') (G1 & G2 & G3 & G4). cbn [fst snd] in *. split; [|split].
      * replace (Z.to_nat (ch + 1)) with (Datatypes.S (Z.to_nat ch)) by lia. rewrite HB. unfold f at 2. lia.
      * congruence.
      * intros x k Hx Hk. destruct (Z.eq_dec k ch) as [->|N].
        -- rewrite G3 by lia. rewrite Z.sub_0_r. reflexivity.
        -- rewrite G4 by (intros; lia). apply E3; auto; lia.
    + cbv beta. intros (c, l) (E1 & E2 & E3). cbn [fst snd] in *. split; [|split; auto].
      rewrite E1. rewrite before_all by lia. unfold f. lia.
  - destruct OK as (LP & F & NM). pose proof (concat_length_const 4 px F) as CL. pose proof (has_len _ _ _ H) as (L0 & L1). rewrite CL in L1 |- *.
    destruct (List.concat px) as [|h0 [|h1 [|h2 [|h3 rest]]]] eqn:EP; cbn [List.length] in CL; try lia.
    pose proof H as H'. apply has_cons in H'. destruct H' as (A0 & H'). apply has_cons in H'. destruct H' as (A1 & H'). apply has_cons in H'. destruct H' as (A2 & H'). apply has_cons in H'. destruct H' as (A3 & _).
    replace (cur + 1 + 1) with (cur + 2) in * by lia. replace (cur + 2 + 1) with (cur + 3) in * by lia.
    unfold hdr_scanline. apply trip_check; [intros; lia|]. intros _. rewrite !rd_ok by lia. cbn [obind]. cbv zeta.
    rewrite A0, A1, A2, A3.
    destruct ((h0 =? 2) && (h1 =? 2) && (h2 * 256 + h3 =? w)) eqn:EM.
    { exfalso. apply andb_true_iff in EM. destruct EM as (EM & E3). apply andb_true_iff in EM. destruct EM as (E1 & E2). apply Z.eqb_eq in E1, E2, E3. rewrite E1, E2 in NM. exact (NM _ _ _ eq_refl E3). }
    rewrite (wr_ok line) by lia. cbn [obind]. rewrite wr_ok by (cbn [asz]; lia). cbn [obind asz aget]. rewrite wr_ok by (cbn [asz]; lia). cbn [obind asz aget]. rewrite wr_ok by (cbn [asz]; lia). cbn [obind asz aget].
    assert (VAL : forall x k, 0 <= x < w -> 0 <= k < 4 -> nth (Z.to_nat k) (nth (Z.to_nat x) px []) 0 = aget data (cur + (x * 4 + k))).
    { intros x k Hx Hk. rewrite <- (nth_concat_const 4 px 0) by (auto; lia). rewrite EP. rewrite <- (has_nth data cur _ (Z.to_nat x * 4 + Z.to_nat k) H) by (cbn [List.length]; lia). f_equal. lia. }
    assert (FIRST : forall k, 0 <= k < 4 -> (if k =? 3 then h3 else if k =? 2 then h2 else if k =? 1 then h1 else if k =? 0 then h0 else aget line k) = aget data (cur + k)).
    { intros k Hk. assert (k = 0 \/ k = 1 \/ k = 2 \/ k = 3) as [->|[->|[->| ->]]] by lia; cbn [Z.eqb Pos.eqb]; rewrite ?Z.add_0_r; congruence. }
    apply trip_if; intros W1.
    + apply trip_check; [intros; lia|]. intros _. eapply trip_bind; [apply copy_trip; cbn [asz]; intros _; lia|].
      intros o (E1 & E2 & E3). cbn [asz aget] in *. unfold trip. cbn [fst snd]. split; [lia|]. split; [auto|].
      intros x k Hx Hk. rewrite VAL by auto. destruct (Z.eq_dec x 0) as [->|N].
      * rewrite E3 by lia. rewrite <- FIRST by lia. replace (0 * 4 + k) with k by lia. reflexivity.
      * replace (x * 4 + k) with (4 + ((x - 1) * 4 + k)) by ring. rewrite E2 by lia. f_equal. ring.
    + unfold trip. cbn [fst snd asz aget]. split; [lia|]. split; [auto|]. intros x k Hx Hk. rewrite VAL by auto.
      assert (x = 0) by lia. subst x. rewrite <- FIRST by lia. replace (0 * 4 + k) with k by lia. reflexivity.
Qed.
Lemma hdr_rows_ok data w cur rows : byte_data data -> 0 < w -> rows <> [] -> Forall (hdr_row_ok w) rows -> has data cur (List.concat (map (hdr_row_bytes w) rows)) ->
  trip Total (fun o => asz o = w * Z.of_nat (List.length rows) * 3 /\ forall y x c row, nth_error rows y = Some row -> 0 <= x < w -> 0 <= c < 3 ->
      aget o ((Z.of_nat y * w + x) * 3 + c) = rgbe (hdr_value row x c) (hdr_value row x 3)) (read_hdr_rows data w (Z.of_nat (List.length rows)) cur).
Proof.
  intros B W NE F H. unfold read_hdr_rows. assert (0 < Z.of_nat (List.length rows)) by (destruct rows; [congruence|cbn; lia]).
  assert (exists h, h = Z.of_nat (List.length rows)) as (h & EH) by eauto. rewrite <- EH in *.
  apply trip_check; [intros; apply orb_false_iff; lia|]. intros _. pose proof (has_len _ _ _ H) as (C0 & _).
  eapply trip_bind.
  - apply (trip_for Total (fun y s => let '(c, l, o) := s in c = cur + before (hdr_row_bytes w) rows (Z.to_nat y) /\ asz l = 4 * w /\ asz o = w * h * 3
       /\ forall y' x c row, Z.of_nat y' < y -> nth_error rows y' = Some row -> 0 <= x < w -> 0 <= c < 3 -> aget o ((Z.of_nat y' * w + x) * 3 + c) = rgbe (hdr_value row x c) (hdr_value row x 3))).
    + cbn [asz]. split; [unfold before; cbn; lia|]. split; [lia|]. split; [auto|]. intros; lia.
    + intros y ((c, l), o) Hy (E1 & E2 & E3 & E4). rewrite Z2Nat.id in Hy by lia.
      destruct (nth_error rows (Z.to_nat y)) as [row|] eqn:ER; [|apply nth_error_None in ER; lia].
      destruct (has_part (hdr_row_bytes w) data cur rows _ _ H ER) as (HP & HB). rewrite <- E1 in HP.
      assert (OK : hdr_row_ok w row) by (eapply Forall_forall in F; [exact F|]; eapply nth_error_In; eauto).
      eapply trip_bind; [apply (hdr_scanline_ok data w c l row); auto|]. intros (c', l') (G1 & G2 & G3). cbn [fst snd] in *.
      eapply trip_bind; [apply (hdr_row_pixels w h y l' o); auto; lia|]. intros o' (G4 & G5 & G6). apply trip_ok.
      split; [replace (Z.to_nat (y + 1)) with (Datatypes.S (Z.to_nat y)) by lia; lia|]. split; [congruence|]. split; [congruence|].
      intros y' x c2 row' Hy' ER' Hx Hc. destruct (Z.eq_dec (Z.of_nat y') y) as [E|N].
      * subst y. rewrite Nat2Z.id in ER. assert (row' = row) by congruence. subst row'. rewrite G5 by auto. rewrite !G3 by lia. reflexivity.
      * rewrite G6; [apply E4; auto; lia|]. left.
        assert ((Z.of_nat y' + 1) * w <= y * w) by (apply Z.mul_le_mono_nonneg_r; lia). lia.
  - intros ((c, l), o) (E1 & E2 & E3 & E4). cbn [snd]. apply trip_ok. split; [auto|]. intros y x c2 row ER Hx Hc. apply E4; auto.
    rewrite Z2Nat.id by lia. assert (y < List.length rows)%nat by (apply nth_error_Some; congruence). lia.
Qed.

(** The text header *)
Lemma read_line_text d l : byte_data d -> text_line l -> forall fuel cur acc, has d cur (l ++ [10]) -> (List.length l < fuel)%nat ->
  read_line fuel d cur acc = Ok (true, acc ++ l, cur + Z.of_nat (List.length l) + 1).
Proof.
  intros B T. induction T as [|c l (N1 & N2) T IH]; intros fuel cur acc H FU; (destruct fuel as [|fuel]; [cbn in FU; lia|]); cbn [app List.length] in *.
  - pose proof (has_len _ _ _ H) as (L0 & L1). cbn [List.length] in L1. apply has_cons in H. destruct H as (E & _). cbn [read_line].
    replace (asz d <=? cur) with false by lia. rewrite rd_ok by lia. cbn [obind]. rewrite E. cbn [Z.eqb Pos.eqb]. rewrite app_nil_r. do 2 f_equal. lia.
  - pose proof (has_len _ _ _ H) as (L0 & L1). cbn [List.length] in L1. apply has_cons in H. destruct H as (E & H). cbn [read_line].
    replace (asz d <=? cur) with false by lia. rewrite rd_ok by lia. cbn [obind]. rewrite E. replace (c =? 10) with false by lia. replace (c =? 13) with false by lia.
    rewrite IH by (auto; lia). rewrite <- app_assoc. cbn [app]. do 2 f_equal. lia.
Qed.
Lemma get_line_text d l cur : byte_data d -> text_line l -> has d cur (l ++ [10]) -> get_line d cur = Ok (true, l, cur + Z.of_nat (List.length l) + 1).
Proof.
  intros B T H. unfold get_line. pose proof (has_len _ _ _ H) as (L0 & L1). rewrite app_length in L1. cbn [List.length] in L1.
  rewrite (read_line_text d l B T _ cur [] H) by lia. reflexivity.
Qed.
Lemma skip_header_text d : byte_data d -> forall lines, Forall text_line lines -> Forall (fun l => l <> []) lines -> forall fuel cur,
  has d cur (List.concat (map (fun l => l ++ [10]) lines) ++ [10]) -> (List.length lines < fuel)%nat ->
  skip_header fuel d cur = Ok (cur + Z.of_nat (List.length (List.concat (map (fun l => l ++ [10]) lines))) + 1).
Proof.
  intros B lines T. induction T as [|l lines TL T IH]; intros NE fuel cur H FU; (destruct fuel as [|fuel]; [cbn in FU; lia|]); cbn [map List.concat List.length skip_header] in *.
  - rewrite (get_line_text d [] cur B (Forall_nil _) H). cbn. try (f_equal; lia).
  - inversion NE as [|? ? N1 N2]; subst. rewrite <- app_assoc in H. apply has_app in H. destruct H as (H1 & H2).
    rewrite (get_line_text d l cur B TL H1). cbn [obind negb]. destruct l as [|c l]; [congruence|].
    rewrite app_length in H2. cbn [List.length] in H2.
    rewrite (IH N2 fuel).
    + f_equal. rewrite !app_length. cbn [List.length]. lia.
    + replace (cur + Z.of_nat (List.length (c :: l)) + 1) with (cur + Z.of_nat (Datatypes.S (List.length l) + 1)) by (cbn [List.length]; lia). exact H2.
    + lia.
Qed.
Lemma digits_text l rest : Forall (fun c => 48 <= c <= 57) l -> match rest with c :: _ => is_digit c = false | [] => True end -> forall acc,
  digits (l ++ rest) acc = (fold_left (fun a c => a * 10 + (c - 48)) l acc, rest).
Proof.
  intros F R. induction F as [|c l D F IH]; intros acc; cbn [app fold_left].
  - destruct rest as [|c t]; cbn; [reflexivity|]. rewrite R. reflexivity.
  - cbn [digits]. unfold is_digit. replace (48 <=? c) with true by lia. replace (c <=? 57) with true by lia. cbn [andb]. apply IH.
Qed.
Lemma scan_int_text l v rest : decimal l v -> v < 2 ^ 31 -> match rest with c :: _ => is_digit c = false | [] => True end ->
  scan_int (32 :: l ++ rest) = Some (v, rest).
Proof.
  intros (NE & F & V) V2 R. unfold scan_int.
  assert (V0 : 0 <= v).
  { rewrite <- V. clear - F. assert (G : forall a, 0 <= a -> 0 <= fold_left (fun a c => a * 10 + (c - 48)) l a); [|apply G; lia].
    induction F as [|c l D F IH]; intros a Ha; cbn [fold_left]; auto. apply IH. lia. }
  destruct l as [|c l]; [congruence|]. inversion F as [|? ? D F']; subst. cbn [app skip_ws]. change (is_space 32) with true. cbv beta iota.
  assert (NS : is_space c = false) by (unfold is_space; lia). cbn [skip_ws]. rewrite NS.
  assert (SG : match c :: l ++ rest with 45 :: t => (-1, t) | 43 :: t => (1, t) | _ => (1, c :: l ++ rest) end = (1, c :: l ++ rest)).
  { assert (48 <= c <= 57) as D2 by auto. clear - D2. assert (c = 48 \/ c = 49 \/ c = 50 \/ c = 51 \/ c = 52 \/ c = 53 \/ c = 54 \/ c = 55 \/ c = 56 \/ c = 57) by lia.
    intuition subst; reflexivity. }
  rewrite SG. assert (ID : is_digit c = true) by (unfold is_digit; lia). rewrite ID. change (c :: l ++ rest) with ((c :: l) ++ rest). rewrite digits_text by auto.
  set (v := fold_left _ (c :: l) 0) in *. replace (1 * v) with v by lia. replace (- 2 ^ 31 <=? v) with true by lia. replace (v <? 2 ^ 31) with true by lia. reflexivity.
Qed.
Lemma parse_text hs ws h w : decimal hs h -> decimal ws w -> h < 2 ^ 31 -> w < 2 ^ 31 ->
  parse_resolution ([45; 89; 32] ++ hs ++ [32; 43; 88; 32] ++ ws) minusY plusX = Some (h, w).
Proof.
  intros DH DW H2 W2. unfold parse_resolution. cbn [app firstn skipn]. destruct (list_eq_dec Z.eq_dec [45; 89] minusY) as [_|N]; [|exfalso; apply N; reflexivity].
  rewrite (scan_int_text hs h (32 :: 43 :: 88 :: 32 :: ws)) by (auto; reflexivity).
  assert (ST : scan_token (32 :: 43 :: 88 :: 32 :: ws) = Some ([43; 88], 32 :: ws)) by reflexivity. rewrite ST.
  rewrite <- (app_nil_r ws). rewrite (scan_int_text ws w []) by auto.
  destruct (list_eq_dec Z.eq_dec [43; 88] plusX) as [_|N]; [reflexivity|exfalso; apply N; reflexivity].
Qed.
Lemma text_app l1 l2 : text_line l1 -> text_line l2 -> text_line (l1 ++ l2).
Proof. intros; apply Forall_app; split; auto. Qed.
Lemma text_decimal l v : decimal l v -> text_line l.
Proof. intros (_ & F & _). eapply Forall_impl; [|exact F]. cbv beta. intros; lia. Qed.
Lemma read_hdr_ok d magic lines hs ws w rows : byte_data d -> text_line magic -> Forall text_line lines -> Forall (fun l => l <> []) lines ->
  decimal hs (Z.of_nat (List.length rows)) -> decimal ws w -> 0 < w < 2 ^ 31 -> 0 < Z.of_nat (List.length rows) < 2 ^ 31 ->
  Forall (hdr_row_ok w) rows -> has d 0 (hdr_header magic lines hs ws ++ List.concat (map (hdr_row_bytes w) rows)) ->
  trip Total (fun r => let '(w', h', o) := r in w' = w /\ h' = Z.of_nat (List.length rows) /\ asz o = w * h' * 3
    /\ forall y x c row, nth_error rows y = Some row -> 0 <= x < w -> 0 <= c < 3 ->
      aget o ((Z.of_nat y * w + x) * 3 + c) = rgbe (hdr_value row x c) (hdr_value row x 3)) (read_hdr d).
Proof.
  intros B TM TL NE DH DW W H F HAS.
  assert (EQ : hdr_header magic lines hs ws ++ List.concat (map (hdr_row_bytes w) rows) =
     (([35; 63] ++ magic) ++ [10]) ++ (List.concat (map (fun l => l ++ [10]) lines) ++ [10]) ++ (([45; 89; 32] ++ hs ++ [32; 43; 88; 32] ++ ws) ++ [10]) ++ List.concat (map (hdr_row_bytes w) rows)).
  { unfold hdr_header. rewrite <- !app_assoc. reflexivity. }
  rewrite EQ in HAS. clear EQ.
  apply has_app in HAS. destruct HAS as (H1 & HAS). apply has_app in HAS. destruct HAS as (H2 & HAS). apply has_app in HAS. destruct HAS as (H3 & H4).
  assert (T1 : text_line ([35; 63] ++ magic)) by (apply text_app; auto; repeat constructor; lia).
  assert (T3 : text_line ([45; 89; 32] ++ hs ++ [32; 43; 88; 32] ++ ws)).
  { apply text_app; [repeat constructor; lia|]. apply text_app; [eapply text_decimal; eauto|]. apply text_app; [repeat constructor; lia|eapply text_decimal; eauto]. }
  unfold read_hdr. rewrite (get_line_text d _ 0 B T1 H1). cbn [obind negb].
  destruct (list_eq_dec Z.eq_dec (firstn 2 ([35; 63] ++ magic)) [35; 63]) as [_|N]; [|exfalso; apply N; reflexivity]. cbn [negb].
  rewrite (app_length _ [10]) in H2, H3, H4. rewrite (app_length (List.concat _) [10]) in H3, H4. rewrite (app_length _ [10]) in H4. cbn [List.length] in H2, H3, H4.
  assert (P1 : 0 + Z.of_nat (List.length ([35; 63] ++ magic)) + 1 = 0 + Z.of_nat (List.length ([35; 63] ++ magic) + 1)) by lia. rewrite P1.
  set (p1 := 0 + Z.of_nat (List.length ([35; 63] ++ magic) + 1)) in *.
  pose proof (has_len _ _ _ H2) as (_ & N2). rewrite app_length in N2.
  assert (LC : (List.length lines <= List.length (List.concat (map (fun l => l ++ [10%Z]) lines)))%nat).
  { clear. induction lines as [|l ls IH]; cbn; [lia|]. rewrite !app_length. cbn. lia. }
  rewrite (skip_header_text d B lines TL NE _ p1 H2) by lia. cbn [obind].
  set (p2 := p1 + Z.of_nat (List.length (List.concat (map (fun l => l ++ [10]) lines))) + 1).
  replace (p1 + Z.of_nat (List.length (List.concat (map (fun l => l ++ [10]) lines)) + 1)) with p2 in H3, H4 by (unfold p2; lia).
  rewrite (get_line_text d _ p2 B T3 H3). cbn [obind negb]. cbv zeta.
  rewrite (parse_text hs ws (Z.of_nat (List.length rows)) w) by (auto; lia).
  eapply trip_bind; [apply (hdr_rows_ok d w _ rows); auto; try lia|].
  - intros E. subst rows. cbn in H. lia.
  - match goal with |- has d ?p _ => match type of H4 with has d ?q _ => replace p with q by lia end end. exact H4.
  - intros o (E1 & E2). apply trip_ok. auto.
Qed.
