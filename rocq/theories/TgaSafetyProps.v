(** * C44, run-length files: exactly which ones make the TGA reader write outside its buffer. *)
From Coq Require Import ZArith Lia List Bool.
From Verif Require Import Common Bytes DecodeModel DecodeSpec DecodeProofs DecodeProps.
Import ListNotations. Open Scope Z_scope.

(* Reading packets of ib-byte pixels from position pos of the file d, with dec pixels of an image of num pixels already decoded, a raw packet is
   reached whose bytes are all in the file but which holds more pixels than the image has left. A packet header below 128 starts a raw packet of
   header + 1 pixels, any other a run of header - 127 copies of one pixel; a run that is too long is cut off. *)
Inductive raw_overrun (d : arr) (ib num : Z) : Z -> Z -> Prop :=
| ov_here pos dec : dec < num -> pos < asz d -> aget d pos < 128 -> pos + 1 + (aget d pos + 1) * ib <= asz d -> num < dec + (aget d pos + 1) -> raw_overrun d ib num pos dec
| ov_raw pos dec : dec < num -> pos < asz d -> aget d pos < 128 -> pos + 1 + (aget d pos + 1) * ib <= asz d -> dec + (aget d pos + 1) <= num ->
    raw_overrun d ib num (pos + 1 + (aget d pos + 1) * ib) (dec + (aget d pos + 1)) -> raw_overrun d ib num pos dec
| ov_run pos dec : dec < num -> pos < asz d -> 128 <= aget d pos -> pos + 1 + ib <= asz d ->
    raw_overrun d ib num (pos + 1 + ib) (dec + (aget d pos - 127)) -> raw_overrun d ib num pos dec.

Lemma run_safe d pos ib num : 0 <= pos -> 0 <= ib -> pos + ib <= asz d -> forall n dec out, 0 <= dec <= num -> asz out = num * ib ->
  exists o, rle_run n d pos ib num dec out = Ok (Z.min num (dec + Z.of_nat n), o) /\ asz o = num * ib.
Proof.
  intros P I E. induction n as [|n IH]; intros dec out D S.
  - cbn [rle_run]. exists out. split; auto. replace (Z.min num (dec + Z.of_nat 0)) with dec by lia. auto.
  - cbn [rle_run]. destruct (Z.ltb_spec dec num) as [L|G].
    + assert (B: dec * ib + ib <= num * ib) by (assert ((dec + 1) * ib <= num * ib) by (apply Z.mul_le_mono_nonneg_r; lia); lia).
      assert (0 <= dec * ib) by (apply Z.mul_nonneg_nonneg; lia).
      pose proof (copy_trip Total (Z.to_nat ib) d pos out (dec * ib)) as T. rewrite Z2Nat.id in T by lia. specialize (T ltac:(intros _; lia)).
      destruct (copy (Z.to_nat ib) d pos out (dec * ib)) as [o| |]; cbn in T; try congruence. destruct T as (SO & _). cbn [obind].
      destruct (IH (dec + 1) o ltac:(lia) ltac:(congruence)) as (o' & E' & S'). exists o'. rewrite E'. split; auto. replace (dec + 1 + Z.of_nat n) with (dec + Z.of_nat (Datatypes.S n)) by lia. auto.
    + exists out. split; auto. replace (Z.min num (dec + Z.of_nat (Datatypes.S n))) with dec by lia. auto.
Qed.
(* a copy past the end of the destination is undefined *)
Lemma copy_overrun : forall n src p dst q, 0 <= p -> p + Z.of_nat n <= asz src -> 0 <= q -> asz dst < q + Z.of_nat n -> copy n src p dst q = UB \/ (q >= asz dst /\ n = O).
Proof.
  induction n as [|n IH]; intros src p dst q P S Q O; [right; lia|]. left. cbn [copy].
  destruct (Z_lt_le_dec (asz dst) (q + Z.of_nat n)) as [L|G].
  - destruct (IH src p dst q P ltac:(lia) Q L) as [->|(A & ->)]; auto. cbn [copy obind]. rewrite rd_ok by (cbn; lia). cbn [obind]. unfold wr. replace ((0 <=? q + Z.of_nat 0) && (q + Z.of_nat 0 <? asz dst)) with false by lia. auto.
  - pose proof (copy_trip Total n src p dst q ltac:(intros _; lia)) as T. destruct (copy n src p dst q) as [o| |]; cbn in T; try congruence. destruct T as (SO & _).
    cbn [obind]. rewrite rd_ok by lia. cbn [obind]. unfold wr. replace ((0 <=? q + Z.of_nat n) && (q + Z.of_nat n <? asz o)) with false by lia. auto.
Qed.
Lemma rle_loop_iff d ib num : byte_data d -> 0 < ib -> forall fuel pos dec out, 0 <= pos -> 0 <= dec <= num -> num - dec <= Z.of_nat fuel -> asz out = num * ib ->
  (rle_loop fuel d ib num pos dec out = UB <-> raw_overrun d ib num pos dec) /\ (forall o, rle_loop fuel d ib num pos dec out = Ok o -> asz o = num * ib).
Proof.
  intros B I. induction fuel as [|k IH]; intros pos dec out P D F S; cbn [rle_loop].
  - replace (num <=? dec) with true by lia. split; [split; [discriminate|intros H; inversion H; lia]|congruence].
  - destruct (Z.leb_spec num dec) as [E|N].
    { split; [split; [discriminate|intros H; inversion H; lia]|congruence]. }
    destruct (Z.leb_spec (asz d) pos) as [E|L].
    { split; [split; [discriminate|intros H; inversion H; lia]|congruence]. }
    rewrite rd_ok by lia. cbn [obind]. cbv zeta. pose proof (proj2 B pos) as BP.
    destruct (Z.leb_spec 128 (aget d pos)) as [R|W].
    + replace ((aget d pos) mod 128 + 1) with ((aget d pos) - 127) by (assert ((aget d pos) mod 128 = (aget d pos) - 128) by (symmetry; apply Z.mod_unique with 1; lia); lia).
      destruct (Z.ltb_spec (asz d) (pos + 1 + ib)) as [T|T].
      { split; [split; [discriminate|intros H; inversion H; lia]|congruence]. }
      destruct (run_safe d (pos + 1) ib num ltac:(lia) ltac:(lia) T (Z.to_nat ((aget d pos) - 127)) dec out ltac:(lia) S) as (o & E & SO). rewrite E. cbn [obind fst snd]. rewrite Z2Nat.id by lia.
      destruct (IH (pos + 1 + ib) (Z.min num (dec + ((aget d pos) - 127))) o ltac:(lia) ltac:(lia) ltac:(lia) SO) as (Q & QO). split; [|exact QO]. rewrite Q. split.
      * intros H. assert (dec + ((aget d pos) - 127) < num). { destruct (Z_lt_le_dec (dec + ((aget d pos) - 127)) num); auto. rewrite Z.min_l in H by lia. inversion H; lia. }
        rewrite Z.min_r in H by lia. apply ov_run; auto; lia.
      * intros H. inversion H; subst; try lia. rewrite Z.min_r; auto. match goal with H : raw_overrun _ _ _ _ (dec + _) |- _ => inversion H; lia end.
    + replace ((aget d pos) mod 128 + 1) with ((aget d pos) + 1) by (rewrite Z.mod_small; lia).
      destruct (Z.ltb_spec (asz d) (pos + 1 + ((aget d pos) + 1) * ib)) as [T|T].
      { split; [split; [discriminate|intros H; inversion H; lia]|congruence]. }
      assert (C0: 0 <= ((aget d pos) + 1) * ib) by (apply Z.mul_nonneg_nonneg; lia). assert (D0: 0 <= dec * ib) by (apply Z.mul_nonneg_nonneg; lia).
      destruct (Z_lt_le_dec num (dec + ((aget d pos) + 1))) as [OV|FI].
      * assert (K: num * ib < dec * ib + ((aget d pos) + 1) * ib). { rewrite <- Z.mul_add_distr_r. apply Z.mul_lt_mono_pos_r; lia. }
        destruct (copy_overrun (Z.to_nat (((aget d pos) + 1) * ib)) d (pos + 1) out (dec * ib) ltac:(lia) ltac:(lia) D0 ltac:(lia)) as [E|(_ & Z0)].
        -- rewrite E. cbn [obind]. split; [split; auto; intros _; apply ov_here; auto; lia|discriminate].
        -- exfalso. assert (0 < ((aget d pos) + 1) * ib) by (apply Z.mul_pos_pos; lia). lia.
      * assert (K: dec * ib + ((aget d pos) + 1) * ib <= num * ib). { rewrite <- Z.mul_add_distr_r. apply Z.mul_le_mono_nonneg_r; lia. }
        pose proof (copy_trip Total (Z.to_nat (((aget d pos) + 1) * ib)) d (pos + 1) out (dec * ib) ltac:(intros _; lia)) as TT. destruct (copy _ d (pos + 1) out (dec * ib)) as [o| |]; cbn in TT; try congruence. destruct TT as (SO & _). cbn [obind].
        destruct (IH (pos + 1 + ((aget d pos) + 1) * ib) (dec + ((aget d pos) + 1)) o ltac:(lia) ltac:(lia) ltac:(lia) ltac:(congruence)) as (Q & QO). split; [|exact QO]. rewrite Q. split.
        -- intros H. apply ov_raw; auto; lia.
        -- intros H. inversion H; subst; try lia. auto.
Qed.
(* the reader on a run-length coded grey or true-colour file *)
Theorem C44_rle_safe_iff d : byte_data d -> tga_rle d = true -> tga_gray d = true \/ (tga_truecolor d = true /\ 24 <= tga_depth d) -> tga_data_pos d <= asz d ->
  (read_tga d = UB <-> raw_overrun d (tga_pixel_bytes d) (tga_width d * tga_height d) (tga_data_pos d) 0).
Proof.
  intros B RL SUP DP. assert (BY : forall i, 0 <= aget d i < 256) by apply B.
  assert (MP0 : 18 <= tga_map_pos d) by (unfold tga_map_pos; specialize (BY 0); lia).
  assert (EB0 : 0 <= tga_entry_bytes d) by (unfold tga_entry_bytes, tga_entry_bits; specialize (BY 7); clear - BY; lia).
  assert (ML0 : 0 <= tga_map_length d) by (unfold tga_map_length, field16; pose proof (BY 5); pose proof (BY (5 + 1)); lia).
  assert (ME0 : 0 <= tga_map_length d * tga_entry_bytes d) by (apply Z.mul_nonneg_nonneg; lia).
  assert (DP0 : tga_map_pos d <= tga_data_pos d) by (unfold tga_data_pos; destruct (tga_has_map d); lia).
  assert (NM: tga_mapped d = false). { unfold tga_mapped, tga_gray, tga_truecolor in *. destruct SUP as [G|(G & _)]; apply orb_true_iff in G; rewrite !Z.eqb_eq in G; apply orb_false_iff; rewrite !Z.eqb_neq; lia. }
  assert (IB0 : 0 < tga_pixel_bytes d). { unfold tga_pixel_bytes. destruct (tga_gray d) eqn:G; [lia|]. destruct SUP as [G'|(_ & G')]; [congruence|]. assert (24 / 8 <= tga_depth d / 8) by (apply Z.div_le_mono; lia). change (24 / 8) with 3 in H. lia. }
  unfold read_tga. replace (asz d <? 18) with false by lia.
  rewrite !rd_ok by lia. cbn [obind].
  destruct (u16_ok d 3 B ltac:(lia) ltac:(lia)) as (-> & R3). destruct (u16_ok d 5 B ltac:(lia) ltac:(lia)) as (-> & R5).
  destruct (u16_ok d 12 B ltac:(lia) ltac:(lia)) as (-> & R12). destruct (u16_ok d 14 B ltac:(lia) ltac:(lia)) as (-> & R14). cbn [obind]. cbv zeta.
  fold (tga_type d). fold (tga_mapped d). fold (tga_gray d). fold (tga_truecolor d). fold (tga_rle d). fold (tga_map_length d) in R5 |- *. fold (tga_has_map d).
  fold (tga_entry_bits d). fold (tga_entry_bytes d). fold (tga_map_pos d). fold (tga_width d) in R12 |- *. fold (tga_height d) in R14 |- *. fold (tga_depth d). fold (tga_first d) in R3 |- *. fold (tga_alpha d). fold (tga_channels d).
  replace (negb (tga_truecolor d) && negb (tga_gray d) && negb (tga_mapped d)) with false by (destruct SUP as [->|(-> & _)]; cbn; rewrite ?andb_false_r; auto).
  replace (asz d <? tga_map_pos d) with false by lia.
  assert (MM: (if tga_has_map d then if asz d <? tga_map_pos d + tga_map_length d * tga_entry_bytes d then Throws else
      c <- slice d (tga_map_pos d) (tga_map_length d * tga_entry_bytes d) ;; Ok (c, tga_entry_bytes d, tga_map_pos d + tga_map_length d * tga_entry_bytes d) else Ok (Arr 0 (fun _ : Z => 0), 0, tga_map_pos d)) =
      Ok (if tga_has_map d then Arr (tga_map_length d * tga_entry_bytes d) (fun i => aget d (tga_map_pos d + i)) else Arr 0 (fun _ => 0), if tga_has_map d then tga_entry_bytes d else 0, tga_data_pos d)).
  { unfold tga_data_pos in *. destruct (tga_has_map d).
    - replace (asz d <? tga_map_pos d + tga_map_length d * tga_entry_bytes d) with false by lia. rewrite slice_ok by lia. reflexivity.
    - rewrite Z.add_0_r. reflexivity. }
  rewrite MM. cbn [obind]. clear MM.
  assert (IBE : (if tga_mapped d then tga_depth d / 8 else if tga_mapped d then (if tga_has_map d then tga_entry_bytes d else 0) else if tga_gray d then 1 else tga_depth d / 8) = tga_pixel_bytes d).
  { unfold tga_pixel_bytes. rewrite NM. destruct (tga_gray d) eqn:G; auto. }
  rewrite IBE, RL.
  assert (NUM0 : 0 <= tga_width d * tga_height d) by (apply Z.mul_nonneg_nonneg; lia).
  destruct (rle_loop_iff d (tga_pixel_bytes d) (tga_width d * tga_height d) B IB0 (Z.to_nat (tga_width d * tga_height d)) (tga_data_pos d) 0
     (Arr (tga_width d * tga_height d * tga_pixel_bytes d) (fun _ => 0)) ltac:(lia) ltac:(lia) ltac:(lia) eq_refl) as (IFF & SZ).
  rewrite <- IFF. destruct (rle_loop _ _ _ _ _ _ _) as [pix| |]; cbn [obind]; [|split; discriminate|tauto].
  split; [|discriminate]. intros H. exfalso. specialize (SZ pix eq_refl).
  set (stored := fun i k => aget pix (i * tga_pixel_bytes d + k)).
  pose proof (tga_finish d stored pix B ltac:(destruct SUP; [left|right; left]; auto) SZ ltac:(intros; reflexivity)) as T.
  cbv beta zeta in T. specialize (T ltac:(auto)). rewrite H in T. cbn in T. congruence.
Qed.
Print Assumptions C44_rle_safe_iff.
(* so a run-length file whose packets are all runs is safe, however long the runs are: here a run of 128 pixels in an image of one *)
Theorem C44_long_run_safe : forall d, byte_data d -> tga_rle d = true -> tga_gray d = true \/ (tga_truecolor d = true /\ 24 <= tga_depth d) -> tga_data_pos d <= asz d ->
  (forall p, tga_data_pos d <= p < asz d -> 128 <= aget d p) -> read_tga d <> UB.
Proof.
  intros d B RL SUP DP H E. apply (C44_rle_safe_iff d B RL SUP DP) in E.
  assert (IB0 : 0 <= tga_pixel_bytes d). { unfold tga_pixel_bytes. destruct (tga_gray d) eqn:G; [lia|]. destruct SUP as [G'|(_ & G')]; [congruence|]. assert (24 / 8 <= tga_depth d / 8) by (apply Z.div_le_mono; lia). change (24 / 8) with 3 in H0. lia. }
  assert (K: forall ib num p dec, 0 <= ib -> raw_overrun d ib num p dec -> tga_data_pos d <= p -> False).
  { intros ib num p dec I O. induction O; intros P; try (specialize (H pos ltac:(lia)); lia). }
  exact (K _ _ _ _ IB0 E (Z.le_refl _)).
Qed.
Definition long_run := of_list [0; 0; 11; 0; 0; 0; 0; 0; 0; 0; 0; 0; 1; 0; 1; 0; 8; 0; 255; 200].
Example C44_rle_cases : byte_data long_run /\ tga_rle long_run = true /\ tga_gray long_run = true /\ tga_data_pos long_run <= asz long_run /\ (forall p, tga_data_pos long_run <= p < asz long_run -> 128 <= aget long_run p) /\ read_tga long_run <> UB.
Proof.
  assert (B: byte_data long_run) by (apply byte_list; [reflexivity|cbn; lia]).
  assert (R: tga_rle long_run = true) by reflexivity. assert (G: tga_gray long_run = true) by reflexivity.
  assert (D: tga_data_pos long_run <= asz long_run) by (vm_compute; congruence).
  assert (Q: forall p, tga_data_pos long_run <= p < asz long_run -> 128 <= aget long_run p).
  { change (tga_data_pos long_run) with 18. change (asz long_run) with 20. intros p H. assert (p = 18 \/ p = 19) as [->| ->] by lia; vm_compute; congruence. }
  repeat (split; auto). apply C44_long_run_safe; auto.
Qed.
