(* Lemmas about the decoders: a small program logic, raster loops, BMP, TGA and HDR. *)
From Verif Require Import Common DecodeModel DecodeSpec.
From Coq Require Import Psatz.
Open Scope Z_scope.

(** Program logic. [trip Loose P o]: a normal result satisfies P. [trip Safe P o]: moreover o is no undefined behaviour.
    [trip Total P o]: moreover o is no exception. *)
Inductive mode := Loose | Safe | Total.
Definition trip {A} (s : mode) (P : A -> Prop) (o : outcome A) : Prop :=
  match o with Ok a => P a | Throws => s <> Total | UB => s = Loose end.
Lemma trip_bind {A B} s (Q : A -> Prop) (P : B -> Prop) o f : trip s Q o -> (forall a, Q a -> trip s P (f a)) -> trip s P (obind o f).
Proof. destruct o; cbn; auto. Qed.
Lemma trip_conseq {A} s (P Q : A -> Prop) o : trip s P o -> (forall a, P a -> Q a) -> trip s Q o.
Proof. destruct o; cbn; auto. Qed.
Lemma trip_ok {A} s (P : A -> Prop) a : P a -> trip s P (Ok a).
Proof. auto. Qed.
Lemma trip_check {A} s (P : A -> Prop) (b : bool) x : (s = Total -> b = false) -> (b = false -> trip s P x) -> trip s P (if b then Throws else x).
Proof. destruct b; cbn; auto. intros H _ E. specialize (H E). discriminate. Qed.
Lemma trip_for {S} s (P : Z -> S -> Prop) n f st : P 0 st ->
  (forall i st, 0 <= i < Z.of_nat n -> P i st -> trip s (P (i + 1)) (f i st)) -> trip s (P (Z.of_nat n)) (for_ n f st).
Proof.
  intros H0 H. induction n as [|n IH]; [exact H0|]. cbn [for_]. eapply trip_bind.
  - apply IH. intros. apply H; auto. lia.
  - intros a Ha. replace (Z.of_nat (Datatypes.S n)) with (Z.of_nat n + 1) by lia. apply H; auto. lia.
Qed.
Lemma trip_if {A} s (P : A -> Prop) (b : bool) x y : (b = true -> trip s P x) -> (b = false -> trip s P y) -> trip s P (if b then x else y).
Proof. destruct b; auto. Qed.
Lemma rd_ok {A} (a : array A) i : 0 <= i < asz a -> rd a i = Ok (aget a i).
Proof. intros H. unfold rd. replace (0 <=? i) with true by lia. replace (i <? asz a) with true by lia. reflexivity. Qed.
Lemma rd_trip {A} s (a : array A) i : (s <> Loose -> 0 <= i < asz a) -> trip s (fun v => v = aget a i /\ 0 <= i < asz a) (rd a i).
Proof.
  intros H. unfold rd. destruct ((0 <=? i) && (i <? asz a)) eqn:E; cbn.
  - split; auto. apply andb_true_iff in E. lia.
  - destruct s; auto; exfalso; specialize (H ltac:(discriminate)); apply andb_false_iff in E; lia.
Qed.
Lemma wr_trip {A} s (a : array A) i v : (s <> Loose -> 0 <= i < asz a) ->
  trip s (fun a' => a' = Arr (asz a) (fun j => if j =? i then v else aget a j) /\ 0 <= i < asz a) (wr a i v).
Proof.
  intros H. unfold wr. destruct ((0 <=? i) && (i <? asz a)) eqn:E; cbn.
  - split; auto. apply andb_true_iff in E. lia.
  - destruct s; auto; exfalso; specialize (H ltac:(discriminate)); apply andb_false_iff in E; lia.
Qed.
Lemma wr_ok {A} (a : array A) i v : 0 <= i < asz a -> wr a i v = Ok (Arr (asz a) (fun j => if j =? i then v else aget a j)).
Proof. intros H. unfold wr. replace (0 <=? i) with true by lia. replace (i <? asz a) with true by lia. reflexivity. Qed.
Lemma intv_trip s z : (s <> Loose -> - 2 ^ 31 <= z < 2 ^ 31) -> trip s (fun v => v = z /\ - 2 ^ 31 <= z < 2 ^ 31) (intv z).
Proof.
  intros H. unfold intv. destruct ((- 2 ^ 31 <=? z) && (z <? 2 ^ 31)) eqn:E; cbn.
  - apply andb_true_iff in E. lia.
  - destruct s; auto; exfalso; specialize (H ltac:(discriminate)); apply andb_false_iff in E; lia.
Qed.
Lemma u16_ok d p : byte_data d -> 0 <= p -> p + 2 <= asz d -> u16 d p = Ok (field16 d p) /\ 0 <= field16 d p < 65536.
Proof.
  intros (S & B) P Q. unfold u16. rewrite !rd_ok by lia. cbn [obind]. split; [reflexivity|]. unfold field16. pose proof (B p). pose proof (B (p + 1)). lia.
Qed.
Lemma u32_ok d p : byte_data d -> 0 <= p -> p + 4 <= asz d -> u32 d p = Ok (field32 d p) /\ 0 <= field32 d p < 2 ^ 32.
Proof.
  intros B P Q. unfold u32. destruct (u16_ok d p B P ltac:(lia)) as (-> & R1). destruct (u16_ok d (p + 2) B ltac:(lia) ltac:(lia)) as (-> & R2).
  cbn [obind]. split; [reflexivity|]. unfold field32. lia.
Qed.
Lemma i32_ok d p : byte_data d -> 0 <= p -> p + 4 <= asz d -> i32 d p = Ok (signed32 (field32 d p)) /\ - 2 ^ 31 <= signed32 (field32 d p) < 2 ^ 31.
Proof.
  intros B P Q. unfold i32. destruct (u32_ok d p B P Q) as (-> & R). cbn [obind]. split; [reflexivity|]. unfold signed32. destruct (Z.leb_spec (2 ^ 31) (field32 d p)); lia.
Qed.

(** Raster loops *)
Definition pixel_written {A} (out out' : array A) (d oc : Z) (E : Z -> A) : Prop :=
  asz out' = asz out /\ (forall c, 0 <= c < oc -> aget out' (d + c) = E c) /\ (forall j, j < d \/ d + oc <= j -> aget out' j = aget out j).
Lemma raster_row {A} s (w oc y : Z) (E : Z -> Z -> A) body (out0 : array A) : 0 <= w -> 0 < oc ->
  (forall x out, 0 <= x < w -> asz out = asz out0 -> trip s (fun out' => pixel_written out out' ((y * w + x) * oc) oc (E x)) (body x out)) ->
  trip s (fun out => asz out = asz out0 /\ (forall x c, 0 <= x < w -> 0 <= c < oc -> aget out ((y * w + x) * oc + c) = E x c)
                     /\ (forall j, j < y * w * oc \/ (y + 1) * w * oc <= j -> aget out j = aget out0 j))
    (for_ (Z.to_nat w) body out0).
Proof.
  intros W C B.
  assert (T : trip s (fun out => asz out = asz out0 /\ (forall x c, 0 <= x < Z.of_nat (Z.to_nat w) -> 0 <= c < oc -> aget out ((y * w + x) * oc + c) = E x c)
                     /\ (forall j, j < y * w * oc \/ (y + 1) * w * oc <= j -> aget out j = aget out0 j)) (for_ (Z.to_nat w) body out0)).
  { apply (trip_for s (fun k out => asz out = asz out0 /\ (forall x c, 0 <= x < k -> 0 <= c < oc -> aget out ((y * w + x) * oc + c) = E x c)
                     /\ (forall j, j < y * w * oc \/ (y + 1) * w * oc <= j -> aget out j = aget out0 j))).
    - split; auto. split; auto. intros; lia.
    - intros x out Hx (S & F & G). eapply trip_conseq; [apply (B x out); auto; lia|]. intros out' (S' & F' & G'). split; [congruence|]. split.
      + intros x' c Hx' Hc. destruct (Z.eq_dec x' x) as [->|N]; [apply F'; auto|]. rewrite G'; [apply F; lia|]. left. nia.
      + intros j Hj. rewrite G'; auto. destruct Hj; [left|right]; nia. }
  rewrite Z2Nat.id in T by auto. exact T.
Qed.
Lemma raster {A} s (w h oc : Z) (E : Z -> Z -> Z -> A) body (out0 : array A) : 0 <= w -> 0 <= h -> 0 < oc -> 
  (forall y x out, 0 <= y < h -> 0 <= x < w -> asz out = asz out0 -> trip s (fun out' => pixel_written out out' ((y * w + x) * oc) oc (E y x)) (body y x out)) ->
  trip s (fun out => asz out = asz out0 /\ (forall y x c, 0 <= y < h -> 0 <= x < w -> 0 <= c < oc -> aget out ((y * w + x) * oc + c) = E y x c))
    (for_ (Z.to_nat h) (fun y => for_ (Z.to_nat w) (body y)) out0).
Proof.
  intros W H C B.
  assert (T : trip s (fun out => asz out = asz out0 /\ (forall y x c, 0 <= y < Z.of_nat (Z.to_nat h) -> 0 <= x < w -> 0 <= c < oc -> aget out ((y * w + x) * oc + c) = E y x c))
    (for_ (Z.to_nat h) (fun y => for_ (Z.to_nat w) (body y)) out0)).
  { apply (trip_for s (fun k out => asz out = asz out0 /\ (forall y x c, 0 <= y < k -> 0 <= x < w -> 0 <= c < oc -> aget out ((y * w + x) * oc + c) = E y x c))).
    - split; auto. intros; lia.
    - intros y out Hy (S & F). eapply trip_conseq.
      + apply (raster_row s w oc y (E y) (body y) out W C). intros x o Hx So. apply B; auto; try lia; try congruence.
      + cbv beta. intros out' (S' & F' & G). split; [congruence|]. intros y' x c Hy' Hx Hc. destruct (Z.eq_dec y' y) as [->|N]; [apply F'; auto|].
        rewrite G; [apply F; auto; lia|]. left. assert (y' * w + x + 1 <= y * w) by nia. nia. }
  rewrite Z2Nat.id in T by auto. exact T.
Qed.
Lemma write3 {A} s (out : array A) d r g b : (s <> Loose -> 0 <= d /\ d + 3 <= asz out) ->
  trip s (fun o => pixel_written out o d 3 (fun c => if c =? 0 then r else if c =? 1 then g else b))
    (out <- wr out (d + 0) r ;; out <- wr out (d + 1) g ;; wr out (d + 2) b).
Proof.
  intros H. eapply trip_bind; [apply wr_trip; intros; lia|]. intros o1 (-> & R1). eapply trip_bind; [apply wr_trip; cbn [asz]; intros; lia|]. intros o2 (-> & R2).
  eapply trip_conseq; [apply wr_trip; cbn [asz]; intros; lia|]. intros o3 (-> & R3). cbn [asz] in *. unfold pixel_written. cbn [asz aget]. split; auto. split.
  - intros c Hc. assert (c = 0 \/ c = 1 \/ c = 2) as [->|[->| ->]] by lia; cbn [Z.eqb].
    + replace (d + 0 =? d + 2) with false by lia. replace (d + 0 =? d + 1) with false by lia. rewrite Z.eqb_refl. reflexivity.
    + replace (d + 1 =? d + 2) with false by lia. rewrite Z.eqb_refl. reflexivity.
    + rewrite Z.eqb_refl. reflexivity.
  - intros j Hj. replace (j =? d + 2) with false by lia. replace (j =? d + 1) with false by lia. replace (j =? d + 0) with false by lia. reflexivity.
Qed.

(** BMP *)
Lemma sz_id z : 0 <= z < 2 ^ 64 -> sz z = z.
Proof. intros. apply Z.mod_small; auto. Qed.
Lemma bmp_pixel_ok s data row fc oc w y x out total : (oc = 3 \/ oc = 4) -> fc = oc -> 0 <= x < w -> 0 <= y -> w < 2 ^ 31 -> y < 2 ^ 31 ->
  asz out = total -> 0 <= row ->
  (s <> Loose -> x * fc < 2 ^ 31 /\ y * w < 2 ^ 31 /\ (y * w + x) * oc + oc <= total /\ row + w * fc <= asz data) ->
  trip s (fun out' => pixel_written out out' ((y * w + x) * oc) oc (fun c => aget data (row + x * fc + bgra c))) (bmp_pixel data row fc oc w y x out).
Proof.
  intros OC FC X Y W2 Y2 SO R H. subst fc. unfold bmp_pixel. assert (0 <= y * w) by nia. assert (0 <= x * oc) by nia.
  eapply trip_bind; [apply intv_trip; intros Hs; apply H in Hs; lia|]. intros si (-> & R1).
  eapply trip_bind; [apply intv_trip; intros Hs; apply H in Hs; lia|]. intros yw (-> & R2).
  rewrite !sz_id by lia. cbv zeta. set (src := row + x * oc). set (d := (y * w + x) * oc).
  assert (Hsrc : s <> Loose -> 0 <= src /\ src + oc <= asz data) by (intros Hs; apply H in Hs; unfold src; split; [nia|]; destruct OC; subst oc; nia).
  assert (Hd : s <> Loose -> 0 <= d /\ d + oc <= asz out) by (intros Hs; apply H in Hs; unfold d; split; [nia|]; rewrite SO; lia).
  eapply trip_bind; [apply rd_trip; intros Hs; specialize (Hsrc Hs); lia|]. intros r (-> & Q1).
  eapply trip_bind; [apply wr_trip; intros Hs; specialize (Hd Hs); lia|]. intros o1 (-> & Q2).
  eapply trip_bind; [apply rd_trip; intros Hs; specialize (Hsrc Hs); lia|]. intros g (-> & Q3).
  eapply trip_bind; [apply wr_trip; cbn [asz]; intros Hs; specialize (Hd Hs); lia|]. intros o2 (-> & Q4).
  eapply trip_bind; [apply rd_trip; intros Hs; specialize (Hsrc Hs); lia|]. intros b (-> & Q5).
  eapply trip_bind; [apply wr_trip; cbn [asz]; intros Hs; specialize (Hd Hs); lia|]. intros o3 (-> & Q6). cbn [asz] in *.
  destruct OC as [->| ->]; cbn [Z.eqb Pos.eqb].
  - unfold pixel_written. cbn [trip asz aget]. split; auto. split.
    + intros c Hc. assert (c = 0 \/ c = 1 \/ c = 2) as [->|[->| ->]] by lia; unfold bgra; cbn [Z.eqb Z.sub Z.opp Z.add Z.pos_sub Pos.pred_double].
      * replace (d + 0 =? d + 2) with false by lia. replace (d + 0 =? d + 1) with false by lia. rewrite Z.eqb_refl. reflexivity.
      * replace (d + 1 =? d + 2) with false by lia. rewrite Z.eqb_refl. reflexivity.
      * rewrite Z.eqb_refl. reflexivity.
    + intros j Hj. replace (j =? d + 2) with false by lia. replace (j =? d + 1) with false by lia. replace (j =? d + 0) with false by lia. reflexivity.
  - eapply trip_bind; [apply rd_trip; intros Hs; specialize (Hsrc Hs); lia|]. intros a (-> & Q7).
    eapply trip_conseq; [apply wr_trip; cbn [asz]; intros Hs; specialize (Hd Hs); lia|]. intros o4 (-> & Q8). cbn [asz] in *.
    unfold pixel_written. cbn [asz aget]. split; auto. split.
    + intros c Hc. assert (c = 0 \/ c = 1 \/ c = 2 \/ c = 3) as [->|[->|[->| ->]]] by lia; unfold bgra; cbn [Z.eqb Pos.eqb Z.sub Z.opp Z.add Z.pos_sub Pos.pred_double].
      * replace (d + 0 =? d + 3) with false by lia. replace (d + 0 =? d + 2) with false by lia. replace (d + 0 =? d + 1) with false by lia. rewrite Z.eqb_refl. reflexivity.
      * replace (d + 1 =? d + 3) with false by lia. replace (d + 1 =? d + 2) with false by lia. rewrite Z.eqb_refl. reflexivity.
      * replace (d + 2 =? d + 3) with false by lia. rewrite Z.eqb_refl. reflexivity.
      * rewrite Z.eqb_refl. reflexivity.
    + intros j Hj. replace (j =? d + 3) with false by lia. replace (j =? d + 2) with false by lia. replace (j =? d + 1) with false by lia. replace (j =? d + 0) with false by lia. reflexivity.
Qed.

Lemma stride_eq t : 0 <= t < 2 ^ 63 -> (t + 3) mod 2 ^ 64 - (t + 3) mod 2 ^ 64 mod 4 = 4 * ((t + 3) / 4).
Proof. intros H. rewrite (Z.mod_small (t + 3)) by lia. pose proof (Z.div_mod (t + 3) 4). lia. Qed.
Lemma div8_24 : 24 / 8 = 3. Proof. reflexivity. Qed.
Lemma div8_32 : 32 / 8 = 4. Proof. reflexivity. Qed.

Lemma row_nonneg o h y st : 0 <= o -> 0 <= y < h -> 0 <= st -> 0 <= o + y * st.
Proof. intros. nia. Qed.
Lemma bmp_bounds w h fc x y o st sy n : 0 <= o -> 0 <= x < w -> 0 <= y < h -> 0 < fc -> w * fc <= st -> 0 <= sy < h ->
  o + st * h <= n -> n < 2 ^ 31 -> w * fc < 2 ^ 31 ->
  x * fc < 2 ^ 31 /\ y * w < 2 ^ 31 /\ (y * w + x) * fc + fc <= w * (h * fc) /\ o + sy * st + w * fc <= n.
Proof.
  intros O X Y F ST SY N N2 WF.
  assert (A1 : x * fc <= w * fc) by (apply Z.mul_le_mono_nonneg_r; lia).
  assert (A2 : st * 1 <= st * h) by (apply Z.mul_le_mono_nonneg_l; [|lia]; assert (0 <= w * fc) by (apply Z.mul_nonneg_nonneg; lia); lia).
  assert (A3 : (w * fc) * h <= st * h) by (apply Z.mul_le_mono_nonneg_r; lia).
  assert (A4 : (y + 1) * w <= h * w) by (apply Z.mul_le_mono_nonneg_r; lia).
  assert (A5 : w * h * 1 <= w * h * fc) by (apply Z.mul_le_mono_nonneg_l; [apply Z.mul_nonneg_nonneg|]; lia).
  assert (A6 : (y * w + x + 1) * fc <= w * h * fc) by (apply Z.mul_le_mono_nonneg_r; lia).
  assert (A7 : (sy + 1) * st <= h * st) by (apply Z.mul_le_mono_nonneg_r; lia).
  replace (w * h * fc) with (w * fc * h) in * by ring. replace (w * (h * fc)) with (w * fc * h) by ring.
  repeat split; lia.
Qed.
Lemma bmp_body_pos s d bpp fc : byte_data d -> bmp_bpp d = bpp -> bpp = 24 /\ fc = 3 \/ bpp = 32 /\ fc = 4 -> 0 <= bmp_width d ->
  0 <= bmp_offset d < 2 ^ 32 -> - 2 ^ 31 <= bmp_width d < 2 ^ 31 -> - 2 ^ 31 <= bmp_height d < 2 ^ 31 ->
  (s <> Loose -> bmp_height d <> - 2 ^ 31 /\ bmp_width d * fc < 2 ^ 31 /\ Z.abs (bmp_height d) * fc < 2 ^ 31 /\ asz d < 2 ^ 31) ->
  (s = Total -> bmp_offset d + bmp_stride d * Z.abs (bmp_height d) <= asz d) ->
  trip s (bmp_decoded d) (bmp_body d (bmp_offset d) (bmp_width d) (bmp_height d) bpp).
Proof.
  intros B EB FB W0 OFF WR HR HS HT. unfold bmp_body.
  assert (DIV : bpp / 8 = fc) by (destruct FB as [(-> & ->)|(-> & ->)]; reflexivity).
  assert (OCE : (if bpp =? 32 then 4 else 3) = fc) by (destruct FB as [(-> & ->)|(-> & ->)]; reflexivity).
  assert (FC : fc = 3 \/ fc = 4) by lia. rewrite OCE, DIV.
  eapply trip_bind with (Q := fun h => h = Z.abs (bmp_height d) /\ 0 <= h < 2 ^ 31).
  { apply trip_if; intros Hf; [split; lia|]. eapply trip_conseq; [apply intv_trip; intros Hs; apply HS in Hs; lia|]. intros a (-> & ?). lia. }
  intros h (EH & Hh).
  eapply trip_bind; [apply intv_trip; intros Hs; apply HS in Hs; destruct FC; subst fc; lia|]. intros wb (-> & WB).
  cbv zeta. rewrite (sz_id (bmp_width d * fc)) by nia. rewrite (sz_id h) by lia. rewrite stride_eq by nia.
  assert (ST : 4 * ((bmp_width d * fc + 3) / 4) = bmp_stride d) by (unfold bmp_stride; rewrite EB, DIV; reflexivity). rewrite ST.
  assert (S1 : bmp_width d * fc <= bmp_stride d < 2 ^ 31 + 4) by (rewrite <- ST; clear - WB; pose proof (Z.div_mod (bmp_width d * fc + 3) 4); pose proof (Z.mod_pos_bound (bmp_width d * fc + 3) 4); lia).
  assert (S0 : 0 <= bmp_stride d) by nia.
  assert (RQ : 0 <= bmp_offset d + bmp_stride d * h < 2 ^ 63) by nia. rewrite (Z.mod_small (bmp_offset d + bmp_stride d * h)) by lia.
  apply trip_check; [intros Ht; specialize (HT Ht); rewrite <- EH in HT; apply Z.ltb_ge; exact HT|]. intros SZ. assert (SZ' : bmp_offset d + bmp_stride d * h <= asz d) by (clear - SZ; lia). clear SZ.
  eapply trip_bind; [apply intv_trip; intros Hs; apply HS in Hs; rewrite EH; destruct FC; subst fc; lia|]. intros hc (-> & HC).
  rewrite (sz_id (h * fc)) by nia. rewrite (sz_id (bmp_width d)) by lia.
  assert (0 <= bmp_width d * (h * fc) < 2 ^ 62) by nia. rewrite (Z.mod_small (bmp_width d * (h * fc))) by lia.
  unfold new_vec. replace (2 ^ 63 <=? bmp_width d * (h * fc)) with false by lia. cbn [obind].
  eapply trip_bind.
  - apply (raster s (bmp_width d) h fc (fun y x c => bmp_channel d x y c)
      (fun y => bmp_pixel d (bmp_offset d + (if 0 <? bmp_height d then h - 1 - y else y) * bmp_stride d) fc fc (bmp_width d) y)); try lia.
    intros y x out Hy Hx So. cbn [asz] in So.
    assert (SY : 0 <= (if 0 <? bmp_height d then h - 1 - y else y) < h) by (destruct (0 <? bmp_height d); lia).
    eapply trip_conseq.
    + apply (bmp_pixel_ok s d _ fc fc (bmp_width d) y x out (bmp_width d * (h * fc))).
      * clear - FC. lia.
      * reflexivity.
      * exact Hx.
      * apply Hy.
      * apply WR.
      * clear - Hy Hh. lia.
      * exact So.
      * apply (row_nonneg _ h); [apply OFF | exact SY | exact S0].
      * intros Hs. apply HS in Hs. destruct Hs as (_ & V1 & _ & V2).
        apply (bmp_bounds _ h _ _ _ _ (bmp_stride d)); try assumption; clear - OFF Hx Hy S1 FC; lia.
    + intros out' (P1 & P2 & P3). split; [auto|]. split; [|auto]. intros c Hc. rewrite P2 by auto. unfold bmp_channel, bmp_file_row. rewrite EB, DIV.
      destruct (0 <? bmp_height d) eqn:Ef; [replace (bmp_height d) with h by lia|]; reflexivity.
  - intros out (SO & FO). cbn [asz] in SO. unfold trip, bmp_decoded. cbn [r_w r_h r_ch r_bytes r_alpha].
    split; [auto|]. split; [auto|]. split; [split; intros; lia|]. split; [rewrite EB, DIV; auto|]. split; [rewrite SO; ring|]. split; [intros; lia|].
    intros x y c Hx Hy Hc. apply FO; auto.
Qed.
Lemma bmp_body_neg s d bpp fc : byte_data d -> bmp_bpp d = bpp -> bpp = 24 /\ fc = 3 \/ bpp = 32 /\ fc = 4 -> bmp_width d < 0 ->
  - 2 ^ 31 <= bmp_width d < 2 ^ 31 -> - 2 ^ 31 <= bmp_height d < 2 ^ 31 ->
  (s <> Loose -> bmp_height d <> - 2 ^ 31 /\ - 2 ^ 31 <= bmp_width d * fc /\ Z.abs (bmp_height d) * fc < 2 ^ 31 /\ asz d < 2 ^ 31) ->
  s <> Total -> trip s (bmp_decoded d) (bmp_body d (bmp_offset d) (bmp_width d) (bmp_height d) bpp).
Proof.
  intros B EB FB W0 WR HR HS NT. unfold bmp_body.
  assert (DIV : bpp / 8 = fc) by (destruct FB as [(-> & ->)|(-> & ->)]; reflexivity).
  assert (OCE : (if bpp =? 32 then 4 else 3) = fc) by (destruct FB as [(-> & ->)|(-> & ->)]; reflexivity).
  assert (FC : fc = 3 \/ fc = 4) by lia. rewrite OCE, DIV.
  eapply trip_bind with (Q := fun h => h = Z.abs (bmp_height d) /\ 0 <= h < 2 ^ 31).
  { apply trip_if; intros Hf; [split; lia|]. eapply trip_conseq; [apply intv_trip; intros Hs; apply HS in Hs; lia|]. intros a (-> & ?). lia. }
  intros h (EH & Hh).
  eapply trip_bind; [apply intv_trip; intros Hs; apply HS in Hs; destruct FC; subst fc; lia|]. intros wb (-> & WB).
  cbv zeta. apply trip_check; [intros; contradiction|]. intros _.
  eapply trip_bind; [apply intv_trip; intros Hs; apply HS in Hs; rewrite EH; destruct FC; subst fc; lia|]. intros hc (-> & HC).
  assert (N : h * fc = 0 \/ 0 < h * fc) by (clear - Hh FC; destruct FC; subst fc; lia).
  destruct N as [N|N].
  - assert (H0 : h = 0) by (clear - N FC; destruct FC; subst fc; lia). rewrite N, H0. cbn [sz]. replace (sz 0) with 0 by reflexivity. rewrite Z.mul_0_r, Z.mod_0_l by lia.
    unfold new_vec. replace (2 ^ 63 <=? 0) with false by reflexivity. cbn [obind Z.to_nat for_]. unfold trip, bmp_decoded. cbn [r_w r_h r_ch r_bytes r_alpha asz].
    split; [auto|]. split; [lia|]. split; [split; intros; lia|]. split; [rewrite EB, DIV; auto|]. split; [ring|]. split; intros; lia.
  - assert (R : 2 ^ 63 <= (sz (bmp_width d) * sz (h * fc)) mod 2 ^ 64).
    { unfold sz. rewrite <- Z.mul_mod by lia. rewrite <- (Z.mod_add _ 1) by lia.
      rewrite Z.mod_small; clear - W0 WR N HC; nia. }
    unfold new_vec. replace (2 ^ 63 <=? _) with true by (symmetry; apply Z.leb_le; exact R). exact NT.
Qed.
Lemma read_bmp_trip s d : byte_data d ->
  (s <> Loose -> bmp_height d <> - 2 ^ 31 /\ - 2 ^ 31 <= bmp_width d * (bmp_bpp d / 8) < 2 ^ 31 /\ Z.abs (bmp_height d) * (bmp_bpp d / 8) < 2 ^ 31 /\ asz d < 2 ^ 31) ->
  (s = Total -> bmp_valid d) ->
  trip s (bmp_decoded d) (read_bmp d).
Proof.
  intros B HS HT. unfold bmp_valid in HT. unfold read_bmp. apply trip_check; [intros; clear HS; intuition lia|]. intros L.
  assert (L' : 54 <= asz d) by (clear - L; lia). clear L.
  rewrite !rd_ok by lia. cbn [obind]. apply trip_check; [intros; clear HS; intuition lia|]. intros _.
  destruct (u32_ok d 10 B ltac:(lia) ltac:(lia)) as (-> & R1). destruct (u32_ok d 14 B ltac:(lia) ltac:(lia)) as (-> & R0). cbn [obind].
  apply trip_check; [intros; clear HS; intuition lia|]. intros _. apply trip_check.
  { intros Ht. apply HT in Ht. apply Z.ltb_ge. pose proof (Z.mod_le (14 + field32 d 14) (2 ^ 32)). clear HS; lia. }
  intros _.
  destruct (i32_ok d 18 B ltac:(lia) ltac:(lia)) as (-> & R2). destruct (i32_ok d 22 B ltac:(lia) ltac:(lia)) as (-> & R3).
  destruct (u16_ok d 28 B ltac:(lia) ltac:(lia)) as (-> & R4). destruct (u32_ok d 30 B ltac:(lia) ltac:(lia)) as (-> & _). cbn [obind].
  apply trip_check; [intros; clear HS; intuition lia|]. intros _. 
  fold (bmp_offset d) in *. fold (bmp_width d) in *. fold (bmp_height d) in *. fold (bmp_bpp d) in *.
  apply trip_check; [intros; clear HS; intuition lia|]. intros BP.
  assert (FB : bmp_bpp d = 24 \/ bmp_bpp d = 32) by (clear - BP; lia).
  assert (FB' : exists fc, (bmp_bpp d = 24 /\ fc = 3 \/ bmp_bpp d = 32 /\ fc = 4) /\ bmp_bpp d / 8 = fc).
  { destruct FB as [E|E]; rewrite E; [exists 3|exists 4]; split; auto. }
  destruct FB' as (fc & FB' & DIV). rewrite DIV in HS.
  destruct (Z_lt_le_dec (bmp_width d) 0) as [N|N].
  - apply (bmp_body_neg s d _ fc); auto.
    + intros Hs. apply HS in Hs. clear - Hs. tauto.
    + intros Ht. apply HT in Ht. clear - Ht N. lia.
  - apply (bmp_body_pos s d _ fc); auto.
    + intros Hs. apply HS in Hs. clear - Hs. tauto.
    + intros Ht. apply HT in Ht. clear - Ht. tauto.
Qed.

(** TGA *)
Lemma copy_trip s n src p dst q : (s <> Loose -> 0 <= p /\ p + Z.of_nat n <= asz src /\ 0 <= q /\ q + Z.of_nat n <= asz dst) ->
  trip s (fun o => asz o = asz dst /\ (forall k, 0 <= k < Z.of_nat n -> aget o (q + k) = aget src (p + k))
                   /\ (forall j, j < q \/ q + Z.of_nat n <= j -> aget o j = aget dst j)) (copy n src p dst q).
Proof.
  induction n as [|n IH]; intros H.
  - cbn. split; auto. split; [intros; lia|auto].
  - cbn [copy]. eapply trip_bind; [apply IH; intros Hs; specialize (H Hs); lia|]. intros o (S & F & G).
    eapply trip_bind; [apply rd_trip; intros Hs; specialize (H Hs); lia|]. intros v (-> & _).
    eapply trip_conseq; [apply wr_trip; intros Hs; specialize (H Hs); lia|]. intros o' (-> & _). cbn [asz aget]. split; auto. split.
    + intros k Hk. destruct (Z.eqb_spec (q + k) (q + Z.of_nat n)) as [E|E]; [f_equal; lia|]. apply F. lia.
    + intros j Hj. replace (j =? q + Z.of_nat n) with false by lia. apply G. lia.
Qed.
(* the colours *)
Definition color (t : tga) (src : Z) : Z * Z * Z * Z :=
  if t_mapped t then
    let index := if t_depth t =? 8 then aget (t_pix t) src else aget (t_pix t) (src * 2) + 256 * aget (t_pix t) (src * 2 + 1) in
    let p := (index - t_first t) * t_entry t in
    (aget (t_cmap t) (p + 2), aget (t_cmap t) (p + 1), aget (t_cmap t) (p + 0), if 4 <=? t_entry t then aget (t_cmap t) (p + 3) else 255)
  else if t_gray t then (aget (t_pix t) src, aget (t_pix t) src, aget (t_pix t) src, 255)
  else let p := src * t_ib t in
    (aget (t_pix t) (p + 2), aget (t_pix t) (p + 1), aget (t_pix t) (p + 0), if 4 <=? t_fc t then aget (t_pix t) (p + 3) else 255).
Definition nth4 (q : Z * Z * Z * Z) (c : Z) : Z := let '(r, g, b, a) := q in if c =? 0 then r else if c =? 1 then g else if c =? 2 then b else a.
Definition resolvable (t : tga) (num src : Z) : Prop :=
  asz (t_pix t) = num * t_ib t /\
  if t_mapped t then
    3 <= t_entry t /\ (t_depth t = 8 /\ t_ib t = 1 \/ t_depth t = 16 /\ t_ib t = 2)
    /\ (let index := if t_depth t =? 8 then aget (t_pix t) src else aget (t_pix t) (src * 2) + 256 * aget (t_pix t) (src * 2 + 1) in
        0 <= index - t_first t < 65536 /\ (index - t_first t + 1) * t_entry t <= asz (t_cmap t))
  else if t_gray t then t_ib t = 1 else t_fc t = t_ib t /\ 3 <= t_ib t.
Lemma src_bound num src ib : 0 <= src < num -> 0 < ib -> 0 <= src * ib /\ src * ib + ib <= num * ib.
Proof. intros. split; [nia|]. assert ((src + 1) * ib <= num * ib) by (apply Z.mul_le_mono_nonneg_r; lia). lia. Qed.
Lemma resolve_ok t num src : 0 <= src < num -> resolvable t num src -> tga_resolve t src = Ok (color t src).
Proof.
  intros Hs (SP & R). unfold tga_resolve, color. destruct (t_mapped t).
  - destruct R as (E3 & D & I1 & I2).
    assert (IX : (if t_depth t =? 8 then rd (t_pix t) src else if t_depth t =? 16 then u16 (t_pix t) (src * 2) else Ok 0)
                 = Ok (if t_depth t =? 8 then aget (t_pix t) src else aget (t_pix t) (src * 2) + 256 * aget (t_pix t) (src * 2 + 1))).
    { destruct D as [(D & IB)|(D & IB)]; rewrite D in *; rewrite IB in SP; cbn [Z.eqb Pos.eqb]; [apply rd_ok; lia|]. unfold u16. rewrite !rd_ok by lia. reflexivity. }
    rewrite IX. cbn [obind]. clear IX. 
    revert I1 I2. generalize (if t_depth t =? 8 then aget (t_pix t) src else aget (t_pix t) (src * 2) + 256 * aget (t_pix t) (src * 2 + 1)).
    intros ix I1 I2. cbv zeta. rewrite Z.mod_small by lia. 
    assert (0 <= (ix - t_first t) * t_entry t) by (apply Z.mul_nonneg_nonneg; lia).
    rewrite Z.mul_add_distr_r, Z.mul_1_l in I2.
    rewrite !rd_ok by lia. cbn [obind]. destruct (Z.leb_spec 4 (t_entry t)); [rewrite rd_ok by lia|]; reflexivity.
  - destruct (t_gray t).
    + rewrite rd_ok by (rewrite SP, R; lia). reflexivity.
    + destruct R as (FC & IB). destruct (src_bound num src (t_ib t) Hs ltac:(lia)) as (B1 & B2). cbv zeta. rewrite !rd_ok by lia. cbn [obind].
      destruct (Z.leb_spec 4 (t_fc t)); [rewrite rd_ok by lia|]; reflexivity.
Qed.
Lemma tga_pixel_ok t w h sy y oc x out num : (oc = 3 \/ oc = 4) -> 0 <= x < w -> 0 <= y < h -> 0 <= sy < h -> num = w * h -> asz out = num * oc ->
  resolvable t num (sy * w + x) ->
  trip Total (fun o => pixel_written out o ((y * w + x) * oc) oc (nth4 (color t (sy * w + x)))) (tga_pixel t w sy y oc x out).
Proof.
  intros OC X Y SY N SO R. unfold tga_pixel.
  assert (SB : 0 <= sy * w + x < num) by (subst num; clear - X SY; assert ((sy + 1) * w <= h * w) by (apply Z.mul_le_mono_nonneg_r; lia); nia).
  assert (DB : 0 <= y * w + x < num) by (subst num; clear - X Y; assert ((y + 1) * w <= h * w) by (apply Z.mul_le_mono_nonneg_r; lia); nia).
  rewrite (resolve_ok t num _ SB R). cbn [obind]. destruct (color t (sy * w + x)) as [[[r g] b] a] eqn:EC. cbn [nth4]. cbv zeta.
  destruct (src_bound num (y * w + x) oc DB ltac:(lia)) as (B1 & B2). rewrite <- SO in B2. generalize dependent ((y * w + x) * oc). intros q B1 B2.
  rewrite (wr_ok out) by lia. cbn [obind]. rewrite wr_ok by (cbn [asz]; lia). cbn [obind]. rewrite wr_ok by (cbn [asz]; lia). cbn [obind asz aget].
  destruct OC as [->| ->]; cbn [Z.eqb Pos.eqb].
  - cbn [trip]. unfold pixel_written. cbn [asz aget]. split; auto. split.
    + intros c Hc. assert (c = 0 \/ c = 1 \/ c = 2) as [->|[->| ->]] by lia; cbn [Z.eqb Pos.eqb].
      * replace (q + 0 =? q + 2) with false by lia. replace (q + 0 =? q + 1) with false by lia. rewrite Z.eqb_refl. reflexivity.
      * replace (q + 1 =? q + 2) with false by lia. rewrite Z.eqb_refl. reflexivity.
      * rewrite Z.eqb_refl. reflexivity.
    + intros j Hj. replace (j =? q + 2) with false by lia. replace (j =? q + 1) with false by lia. replace (j =? q + 0) with false by lia. reflexivity.
  - rewrite wr_ok by (cbn [asz]; lia). cbn [trip]. unfold pixel_written. cbn [asz aget]. split; auto. split.
    + intros c Hc. assert (c = 0 \/ c = 1 \/ c = 2 \/ c = 3) as [->|[->|[->| ->]]] by lia; cbn [Z.eqb Pos.eqb].
      * replace (q + 0 =? q + 3) with false by lia. replace (q + 0 =? q + 2) with false by lia. replace (q + 0 =? q + 1) with false by lia. rewrite Z.eqb_refl. reflexivity.
      * replace (q + 1 =? q + 3) with false by lia. replace (q + 1 =? q + 2) with false by lia. rewrite Z.eqb_refl. reflexivity.
      * replace (q + 2 =? q + 3) with false by lia. rewrite Z.eqb_refl. reflexivity.
      * rewrite Z.eqb_refl. reflexivity.
    + intros j Hj. replace (j =? q + 3) with false by lia. replace (j =? q + 2) with false by lia. replace (j =? q + 1) with false by lia. replace (j =? q + 0) with false by lia. reflexivity.
Qed.
Lemma tga_convert_ok t w h oc top : (oc = 3 \/ oc = 4) -> 0 <= w -> 0 <= h -> (forall src, 0 <= src < w * h -> resolvable t (w * h) src) ->
  trip Total (fun o => asz o = w * h * oc /\ forall y x c, 0 <= y < h -> 0 <= x < w -> 0 <= c < oc ->
     aget o ((y * w + x) * oc + c) = nth4 (color t ((if top : bool then y else h - 1 - y) * w + x)) c)
   (tga_convert t w h oc top (Arr (w * h * oc) (fun _ => 0))).
Proof.
  intros OC W H R. unfold tga_convert.
  apply (raster Total w h oc (fun y x c => nth4 (color t ((if top then y else h - 1 - y) * w + x)) c)
    (fun y => tga_pixel t w (if top then y else h - 1 - y) y oc)); auto; try lia.
  intros y x out Hy Hx So. cbn [asz] in So. assert (0 <= (if top then y else h - 1 - y) < h) by (destruct top; lia).
  apply (tga_pixel_ok t w h _ y oc x out (w * h)); auto. apply R.
  assert (((if top then y else h - 1 - y) + 1) * w <= h * w) by (apply Z.mul_le_mono_nonneg_r; lia). nia.
Qed.

(** Run-length packets *)
Lemma has_app {A} (d : array A) p l1 l2 : has d p (l1 ++ l2) -> has d p l1 /\ has d (p + Z.of_nat (List.length l1)) l2.
Proof.
  intros (P & S & H). rewrite app_length in S. split.
  - split; [auto|]. split; [lia|]. intros i v E. apply H. rewrite nth_error_app1; auto. apply nth_error_Some. congruence.
  - split; [lia|]. split; [lia|]. intros i v E. rewrite <- Z.add_assoc, <- Nat2Z.inj_add. apply H. rewrite nth_error_app2 by lia. rewrite <- E. f_equal. lia.
Qed.
Lemma has_nth (d : arr) p l i : has d p l -> (i < List.length l)%nat -> aget d (p + Z.of_nat i) = nth i l 0.
Proof. intros (P & S & H) L. apply H. apply nth_error_nth'. auto. Qed.
Lemma has_len {A} (d : array A) p l : has d p l -> 0 <= p /\ p + Z.of_nat (List.length l) <= asz d.
Proof. intros (P & S & H). auto. Qed.
Lemma nth_repeat_lt' {A} (x z : A) n i : (i < n)%nat -> nth i (repeat x n) z = x.
Proof. revert i; induction n as [|n IH]; intros [|i] H; cbn; auto; try lia. apply IH; lia. Qed.
Lemma concat_length_const {A} ib (l : list (list A)) : Forall (fun x => List.length x = ib) l -> List.length (List.concat l) = (List.length l * ib)%nat.
Proof. induction 1; cbn; auto. rewrite app_length. lia. Qed.
Lemma nth_concat_const {A} ib (l : list (list A)) (z : A) i k : Forall (fun x => List.length x = ib) l -> (k < ib)%nat -> (i < List.length l)%nat ->
  nth (i * ib + k) (List.concat l) z = nth k (nth i l []) z.
Proof.
  intros F K. revert i. induction F as [|x l E F IH]; intros i L; cbn in L; [lia|]. cbn [List.concat]. destruct i as [|i]; cbn [nth Nat.mul Nat.add].
  - rewrite app_nth1 by lia. reflexivity.
  - rewrite app_nth2 by lia. rewrite <- IH by lia. f_equal. lia.
Qed.
(* pixels [dec, dec + n) of out hold the pixel px *)
Lemma rle_run_ok (ib : nat) d pos num px : has d pos px -> List.length px = ib -> forall n dec out,
  0 <= dec -> dec + Z.of_nat n <= num -> asz out = num * Z.of_nat ib ->
  trip Total (fun r => fst r = dec + Z.of_nat n /\ asz (snd r) = asz out
     /\ (forall i k, 0 <= i < Z.of_nat n -> 0 <= k < Z.of_nat ib -> aget (snd r) ((dec + i) * Z.of_nat ib + k) = nth (Z.to_nat k) px 0)
     /\ (forall j, j < dec * Z.of_nat ib -> aget (snd r) j = aget out j))
   (rle_run n d pos (Z.of_nat ib) num dec out).
Proof.
  intros HP LP. pose proof (has_len _ _ _ HP) as (P0 & P1). induction n as [|n IH]; intros dec out D0 D1 SO.
  - cbn. split; [lia|]. split; [auto|]. split; [intros; lia|auto].
  - cbn [rle_run]. replace (dec <? num) with true by lia.
    destruct (src_bound num dec (Z.of_nat ib + 1) ltac:(lia) ltac:(lia)) as (B1 & B2). clear B1.
    assert (B3 : dec * Z.of_nat ib + Z.of_nat ib <= num * Z.of_nat ib) by (clear - D1 D0; assert ((dec + 1) * Z.of_nat ib <= num * Z.of_nat ib) by (apply Z.mul_le_mono_nonneg_r; lia); lia).
    assert (B4 : 0 <= dec * Z.of_nat ib) by (apply Z.mul_nonneg_nonneg; lia).
    eapply trip_bind; [apply copy_trip; intros _; rewrite Nat2Z.id; lia|]. rewrite Nat2Z.id. intros o (S & F & G).
    eapply trip_conseq; [apply (IH (dec + 1) o); try lia; congruence|]. cbv beta. intros (dec', o') (E1 & E2 & F' & G'). cbn [fst snd] in *.
    split; [lia|]. split; [congruence|]. split.
    + intros i k Hi Hk. destruct (Z.eq_dec i 0) as [->|N].
      * rewrite G' by (rewrite Z.mul_add_distr_r; lia). replace ((dec + 0) * Z.of_nat ib + k) with (dec * Z.of_nat ib + k) by ring. rewrite F by lia.
        rewrite <- (has_nth d pos px (Z.to_nat k)); auto; [f_equal; lia|lia].
      * replace (dec + i) with (dec + 1 + (i - 1)) by ring. apply F'; lia.
    + intros j Hj. rewrite G' by (rewrite Z.mul_add_distr_r; lia). apply G. lia.
Qed.
Lemma rle_loop_ok (ib : nat) d num : byte_data d -> forall ks, Forall (packet_ok ib) ks -> forall fuel pos dec out,
  has d pos (List.concat (map packet_bytes ks)) -> 0 <= dec -> (List.length ks <= fuel)%nat ->
  dec + Z.of_nat (List.length (List.concat (map packet_pixels ks))) = num -> asz out = num * Z.of_nat ib ->
  trip Total (fun o => asz o = asz out
    /\ (forall i k, 0 <= i < Z.of_nat (List.length (List.concat (map packet_pixels ks))) -> 0 <= k < Z.of_nat ib ->
         aget o ((dec + i) * Z.of_nat ib + k) = nth (Z.to_nat k) (nth (Z.to_nat i) (List.concat (map packet_pixels ks)) []) 0)
    /\ (forall j, j < dec * Z.of_nat ib -> aget o j = aget out j)) (rle_loop fuel d (Z.of_nat ib) num pos dec out).
Proof.
  intros B ks F. induction F as [|pk ks OK F IH]; intros fuel pos dec out H D0 FU T SO.
  - cbn in *. destruct fuel; cbn [rle_loop]; replace (num <=? dec) with true by lia; cbn; (split; [auto|]; split; [intros; lia|auto]).
  - cbn [List.length] in FU. destruct fuel as [|fuel]; [lia|]. cbn [map List.concat] in H, T |- *. rewrite app_length in T |- *.
    apply has_app in H. destruct H as (H1 & H2).
    assert (NP : (1 <= List.length (packet_pixels pk))%nat) by (destruct pk; cbn in OK |- *; [rewrite repeat_length|]; lia).
    cbn [rle_loop]. replace (num <=? dec) with false by lia.
    assert (HB : exists hd body, packet_bytes pk = hd :: body) by (destruct pk; cbn; eauto). destruct HB as (hd & body & HB). rewrite HB in H1.
    pose proof (has_len _ _ _ H1) as (L0 & L1). cbn [List.length] in L1.
    apply trip_check; [intros; lia|]. intros _.
    pose proof (has_nth d pos (hd :: body) 0 H1 ltac:(cbn; lia)) as E0. cbn [nth Z.of_nat] in E0. rewrite Z.add_0_r in E0.
    rewrite rd_ok by lia. cbn [obind]. rewrite E0. clear E0. cbv zeta.
    assert (H1b : has d (pos + 1) body) by (apply (has_app d pos [hd] body) in H1; apply H1).
    rewrite HB in H2. cbn [List.length] in H2.
    destruct pk as [n px|pxs]; cbn [packet_bytes packet_pixels packet_ok] in *.
    + assert (EH : hd = 127 + Z.of_nat n) by congruence. assert (EB : body = px) by congruence. clear HB. subst hd body. destruct OK as (On & OL). rewrite repeat_length in NP, T |- *.
      replace (128 <=? 127 + Z.of_nat n) with true by lia.
      replace (Z.to_nat ((127 + Z.of_nat n) mod 128 + 1)) with n by (clear - On; lia).
      rewrite OL in L1. apply trip_check; [intros; lia|]. intros _.
      eapply trip_bind; [apply (rle_run_ok ib d (pos + 1) num px); auto; lia|]. intros (dec', o) (E1 & E2 & Fr & G). cbn [fst snd] in *. subst dec'.
      eapply trip_conseq; [apply (IH fuel (pos + 1 + Z.of_nat ib) (dec + Z.of_nat n) o)|].
      * rewrite <- OL. replace (pos + 1 + Z.of_nat (List.length px)) with (pos + Z.of_nat (S (List.length px))) by lia. exact H2.
      * lia.
      * lia.
      * lia.
      * congruence.
      * cbv beta. intros o' (S' & F' & G'). split; [congruence|]. split.
        -- intros i k Hi Hk. destruct (Z_lt_le_dec i (Z.of_nat n)) as [Li|Li].
           ++ rewrite G'.
              { rewrite Fr by lia. rewrite app_nth1 by (rewrite repeat_length; lia). rewrite nth_repeat_lt' by lia. reflexivity. }
              assert ((dec + i + 1) * Z.of_nat ib <= (dec + Z.of_nat n) * Z.of_nat ib) by (apply Z.mul_le_mono_nonneg_r; lia). lia.
           ++ rewrite app_nth2 by (rewrite repeat_length; lia). rewrite repeat_length.
              replace (dec + i) with (dec + Z.of_nat n + (i - Z.of_nat n)) by ring. rewrite F' by lia. f_equal. f_equal. lia.
        -- intros j Hj. rewrite G'; [apply G; auto|]. rewrite Z.mul_add_distr_r. assert (0 <= Z.of_nat n * Z.of_nat ib) by (apply Z.mul_nonneg_nonneg; lia). lia.
    + assert (EH : hd = Z.of_nat (List.length pxs) - 1) by congruence. assert (EB : body = List.concat pxs) by congruence. clear HB. subst hd body. destruct OK as (On & OL). pose proof (concat_length_const ib pxs OL) as CL. rewrite CL in L1, H2.
      replace (128 <=? Z.of_nat (List.length pxs) - 1) with false by lia.
      replace ((Z.of_nat (List.length pxs) - 1) mod 128 + 1) with (Z.of_nat (List.length pxs)) by (clear - On; lia).
      assert (EN : Z.of_nat (List.length pxs) * Z.of_nat ib = Z.of_nat (List.length pxs * ib)) by lia. rewrite EN.
      apply trip_check; [intros; lia|]. intros _.
      assert (BO : dec * Z.of_nat ib + Z.of_nat (List.length pxs * ib) <= num * Z.of_nat ib).
      { rewrite <- EN, <- Z.mul_add_distr_r. apply Z.mul_le_mono_nonneg_r; lia. }
      assert (B4 : 0 <= dec * Z.of_nat ib) by (apply Z.mul_nonneg_nonneg; lia).
      eapply trip_bind; [apply copy_trip; intros _; rewrite Nat2Z.id; lia|]. rewrite Nat2Z.id. intros o (S & Fc & G).
      eapply trip_conseq; [apply (IH fuel (pos + 1 + Z.of_nat (List.length pxs * ib)) (dec + Z.of_nat (List.length pxs)) o)|].
      * replace (pos + 1 + Z.of_nat (List.length pxs * ib)) with (pos + Z.of_nat (Datatypes.S (List.length pxs * ib))) by lia. exact H2.
      * lia.
      * lia.
      * lia.
      * congruence.
      * cbv beta. intros o' (S' & F' & G'). split; [congruence|]. split.
        -- intros i k Hi Hk. destruct (Z_lt_le_dec i (Z.of_nat (List.length pxs))) as [Li|Li].
           ++ rewrite app_nth1 by lia. rewrite G'.
              { replace ((dec + i) * Z.of_nat ib + k) with (dec * Z.of_nat ib + (i * Z.of_nat ib + k)) by ring.
                assert ((i + 1) * Z.of_nat ib <= Z.of_nat (List.length pxs) * Z.of_nat ib) by (apply Z.mul_le_mono_nonneg_r; lia).
                assert (0 <= i * Z.of_nat ib) by (apply Z.mul_nonneg_nonneg; lia).
                rewrite Fc by lia. rewrite <- (nth_concat_const ib pxs 0); auto; try lia.
                rewrite <- (has_nth d (pos + 1) (List.concat pxs)); auto; [f_equal; lia|]. rewrite CL. lia. }
              assert ((dec + i + 1) * Z.of_nat ib <= (dec + Z.of_nat (List.length pxs)) * Z.of_nat ib) by (apply Z.mul_le_mono_nonneg_r; lia). lia.
           ++ rewrite app_nth2 by lia.
              replace (dec + i) with (dec + Z.of_nat (List.length pxs) + (i - Z.of_nat (List.length pxs))) by ring. rewrite F' by lia. f_equal. f_equal. lia.
        -- intros j Hj. rewrite G'; [apply G; auto|]. rewrite Z.mul_add_distr_r. assert (0 <= Z.of_nat (List.length pxs) * Z.of_nat ib) by (apply Z.mul_nonneg_nonneg; lia). lia.
Qed.
Lemma slice_ok d p n : 0 <= p -> 0 <= n -> p + n <= asz d -> slice d p n = Ok (Arr n (fun i => aget d (p + i))).
Proof. intros. unfold slice. replace (0 <=? p) with true by lia. replace (0 <=? n) with true by lia. replace (p + n <=? asz d) with true by lia. reflexivity. Qed.
(* the conversion step on the decoded pixels *)
Lemma tga_finish d stored pix : byte_data d -> tga_supported d stored ->
  asz pix = tga_width d * tga_height d * tga_pixel_bytes d ->
  (forall i k, 0 <= i < tga_width d * tga_height d -> 0 <= k < tga_pixel_bytes d -> aget pix (i * tga_pixel_bytes d + k) = stored i k) ->
  (tga_has_map d = true -> tga_data_pos d <= asz d) ->
  trip Total (tga_decoded d stored)
   (out <- tga_convert (Tga (tga_mapped d) (tga_gray d) (tga_depth d) (tga_first d) (if tga_has_map d then tga_entry_bytes d else 0)
            (if tga_mapped d then (if tga_has_map d then tga_entry_bytes d else 0) else if tga_gray d then 1 else tga_depth d / 8) (tga_pixel_bytes d)
            (if tga_has_map d then Arr (tga_map_length d * tga_entry_bytes d) (fun i => aget d (tga_map_pos d + i)) else Arr 0 (fun _ => 0)) pix)
            (tga_width d) (tga_height d) (tga_channels d) (Z.testbit (aget d 17) 5)
            (Arr (tga_width d * tga_height d * tga_channels d) (fun _ => 0)) ;;
    Ok (Raw (tga_width d) (tga_height d) (tga_channels d) out (tga_alpha d))).
Proof.
  intros B SUP SP ST MP.
  assert (W : 0 <= tga_width d) by (unfold tga_width, field16; destruct B as (_ & B); pose proof (B 12); pose proof (B (12 + 1)); lia).
  assert (H : 0 <= tga_height d) by (unfold tga_height, field16; destruct B as (_ & B); pose proof (B 14); pose proof (B (14 + 1)); lia).
  assert (ML : 0 <= tga_map_length d < 65536) by (unfold tga_map_length, field16; destruct B as (_ & B); pose proof (B 5); pose proof (B (5 + 1)); lia).
  assert (OC : tga_channels d = 3 \/ tga_channels d = 4) by (unfold tga_channels; destruct (tga_alpha d); auto).
  assert (EX : forall m g : bool, m = tga_mapped d -> g = tga_gray d -> m = true -> g = true -> False).
  { unfold tga_mapped, tga_gray. intros m g -> -> E1 E2. apply orb_true_iff in E1, E2. rewrite !Z.eqb_eq in E1, E2. clear - E1 E2. lia. }
  assert (EX2 : forall m g : bool, m = tga_mapped d -> g = tga_truecolor d -> m = true -> g = true -> False).
  { unfold tga_mapped, tga_truecolor. intros m g -> -> E1 E2. apply orb_true_iff in E1, E2. rewrite !Z.eqb_eq in E1, E2. clear - E1 E2. lia. }
  assert (EX3 : forall m g : bool, m = tga_gray d -> g = tga_truecolor d -> m = true -> g = true -> False).
  { unfold tga_gray, tga_truecolor. intros m g -> -> E1 E2. apply orb_true_iff in E1, E2. rewrite !Z.eqb_eq in E1, E2. clear - E1 E2. lia. }
  eapply trip_bind; [apply tga_convert_ok; auto|].
  - intros src Hs. unfold resolvable. cbn [t_pix t_ib t_mapped t_gray t_depth t_first t_entry t_fc t_cmap]. split; [exact SP|].
    destruct SUP as [G|[(T & D)|(M & HM & EB & DB & IX)]].
    + destruct (tga_mapped d) eqn:M; [exfalso; eapply EX; eauto|]. rewrite G. unfold tga_pixel_bytes. rewrite G. reflexivity.
    + destruct (tga_mapped d) eqn:M; [exfalso; eapply EX2; eauto|]. destruct (tga_gray d) eqn:G; [exfalso; eapply EX3; eauto|].
      unfold tga_pixel_bytes. rewrite G. split; [reflexivity|]. clear - D. lia.
    + rewrite M, HM. destruct (tga_gray d) eqn:G; [exfalso; eapply EX; eauto|]. unfold tga_pixel_bytes in *. rewrite G in *. cbn [asz].
      assert (E3 : 3 <= tga_entry_bytes d) by (unfold tga_entry_bytes; destruct EB as [-> | ->]; vm_compute; congruence).
      split; [auto|]. split; [destruct DB as [-> | ->]; [left|right]; split; reflexivity|].
      specialize (IX src Hs). unfold tga_index in IX.
      assert (IE : (if tga_depth d =? 8 then aget pix src else aget pix (src * 2) + 256 * aget pix (src * 2 + 1)) = (if tga_depth d =? 8 then stored src 0 else stored src 0 + 256 * stored src 1)).
      { destruct DB as [E|E]; rewrite E in *; cbn [Z.eqb Pos.eqb].
        - change (8 / 8) with 1 in ST. rewrite <- (ST src 0) by lia. f_equal. lia.
        - change (16 / 8) with 2 in ST. rewrite <- (ST src 0), <- (ST src 1) by lia. f_equal. f_equal. lia. }
      cbv zeta. rewrite IE. revert IX. generalize (if tga_depth d =? 8 then stored src 0 else stored src 0 + 256 * stored src 1). intros ix IX.
      split; [clear - IX ML; lia|]. apply Z.mul_le_mono_nonneg_r; clear - IX E3; lia.
  - intros out (SO & FO). unfold trip, tga_decoded. cbn [r_w r_h r_alpha r_ch r_bytes]. split; [auto|]. split; [auto|]. split; [auto|]. split; [auto|]. split; [auto|].
    intros x y c Hx Hy Hc. rewrite FO by auto. unfold tga_file_row.
    assert (SB : 0 <= (if Z.testbit (aget d 17) 5 then y else tga_height d - 1 - y) < tga_height d) by (destruct (Z.testbit (aget d 17) 5); lia).
    revert SB. generalize (if Z.testbit (aget d 17) 5 then y else tga_height d - 1 - y). intros sy SY.
    assert (SB : 0 <= sy * tga_width d + x < tga_width d * tga_height d).
    { clear - Hx SY. assert ((sy + 1) * tga_width d <= tga_height d * tga_width d) by (apply Z.mul_le_mono_nonneg_r; lia). nia. }
    revert SB. generalize (sy * tga_width d + x). intros i SB. unfold color, tga_channel. cbn [t_pix t_ib t_mapped t_gray t_depth t_first t_entry t_fc t_cmap].
    destruct SUP as [G|[(T & D)|(M & HM & EB & DB & IX)]].
    + destruct (tga_mapped d) eqn:M; [exfalso; eapply EX; eauto|]. unfold tga_channels, tga_alpha in Hc. rewrite M, G in Hc. rewrite G. unfold tga_pixel_bytes in ST. rewrite G in ST.
      specialize (ST i 0 SB ltac:(lia)). replace (i * 1 + 0) with i in ST by lia. rewrite ST.
      assert (c = 0 \/ c = 1 \/ c = 2) as [->|[->| ->]] by lia; reflexivity.
    + destruct (tga_mapped d) eqn:M; [exfalso; eapply EX2; eauto|]. destruct (tga_gray d) eqn:G; [exfalso; eapply EX3; eauto|].
      unfold tga_pixel_bytes in *. rewrite G in *. unfold tga_channels, tga_alpha in Hc. rewrite M, G in Hc.
      assert (D3 : 3 <= tga_depth d / 8) by (clear - D; lia).
      rewrite !ST by lia. unfold bgra.
      assert (C4 : c = 0 \/ c = 1 \/ c = 2 \/ (c = 3 /\ tga_depth d = 32)) by (clear - Hc; destruct (Z.eqb_spec (tga_depth d) 32); lia).
      destruct C4 as [->|[->|[->|(-> & E)]]]; try reflexivity. rewrite E. change (4 <=? 32 / 8) with true. cbn [nth4 Z.eqb Pos.eqb]. rewrite <- E. rewrite ST; [reflexivity|auto|]. rewrite E. change (32 / 8) with 4. lia.
    + rewrite M, HM. destruct (tga_gray d) eqn:G; [exfalso; eapply EX; eauto|]. unfold tga_pixel_bytes in *. rewrite G in *. cbn [aget].
      unfold tga_channels, tga_alpha in Hc. rewrite M in Hc. unfold tga_index.
      assert (IE : (if tga_depth d =? 8 then aget pix i else aget pix (i * 2) + 256 * aget pix (i * 2 + 1)) = (if tga_depth d =? 8 then stored i 0 else stored i 0 + 256 * stored i 1)).
      { destruct DB as [E|E]; rewrite E in *; cbn [Z.eqb Pos.eqb].
        - change (8 / 8) with 1 in ST. rewrite <- (ST i 0) by lia. f_equal. lia.
        - change (16 / 8) with 2 in ST. rewrite <- (ST i 0), <- (ST i 1) by lia. f_equal. f_equal. lia. }
      cbv zeta. rewrite IE. generalize (if tga_depth d =? 8 then stored i 0 else stored i 0 + 256 * stored i 1). intros ix.
      assert (C4 : c = 0 \/ c = 1 \/ c = 2 \/ (c = 3 /\ tga_entry_bits d = 32)) by (clear - Hc; destruct (Z.eqb_spec (tga_entry_bits d) 32); lia).
      destruct C4 as [->|[->|[->|(-> & E)]]]; cbn [nth4 Z.eqb Pos.eqb]; try (unfold bgra; cbn [Z.eqb Pos.eqb]; f_equal; ring).
      replace (4 <=? tga_entry_bytes d) with true by (unfold tga_entry_bytes; rewrite E; reflexivity). unfold bgra; cbn [Z.eqb Pos.eqb]; f_equal; ring.
Qed.
Lemma packed_fuel ks ib : Forall (packet_ok ib) ks -> (List.length ks <= List.length (List.concat (map packet_pixels ks)))%nat.
Proof.
  induction 1 as [|k ks OK F IH]; cbn; [lia|]. rewrite app_length.
  assert (1 <= List.length (packet_pixels k))%nat by (destruct k; cbn in OK |- *; [rewrite repeat_length|]; lia). lia.
Qed.
Lemma read_tga_trip s d stored : byte_data d -> tga_supported d stored -> tga_plain d stored \/ tga_packed d stored ->
  (s = Total -> 18 <= asz d /\ tga_data_pos d <= asz d /\ (tga_rle d = false -> tga_data_pos d + tga_width d * tga_height d * tga_pixel_bytes d <= asz d)) ->
  trip s (tga_decoded d stored) (read_tga d).
Proof.
  intros B SUP PL HT. unfold read_tga. apply trip_check; [intros Ht; apply HT in Ht; lia|]. intros L. assert (L' : 18 <= asz d) by (clear - L; lia). clear L.
  rewrite !rd_ok by (clear - L'; lia). cbn [obind].
  destruct (u16_ok d 3 B ltac:(lia) ltac:(lia)) as (-> & R3). destruct (u16_ok d 5 B ltac:(lia) ltac:(lia)) as (-> & R5).
  destruct (u16_ok d 12 B ltac:(lia) ltac:(lia)) as (-> & R12). destruct (u16_ok d 14 B ltac:(lia) ltac:(lia)) as (-> & R14). cbn [obind]. cbv zeta.
  fold (tga_type d). fold (tga_mapped d). fold (tga_gray d). fold (tga_truecolor d). fold (tga_rle d). fold (tga_map_length d) in R5 |- *. fold (tga_has_map d).
  fold (tga_entry_bits d). fold (tga_entry_bytes d). fold (tga_map_pos d). fold (tga_width d) in R12 |- *. fold (tga_height d) in R14 |- *. fold (tga_depth d). fold (tga_first d) in R3 |- *. fold (tga_alpha d). fold (tga_channels d).
  assert (BY : forall i, 0 <= aget d i < 256) by apply B.
  assert (MP0 : 18 <= tga_map_pos d) by (unfold tga_map_pos; specialize (BY 0); lia).
  assert (EB0 : 0 <= tga_entry_bytes d) by (unfold tga_entry_bytes, tga_entry_bits; specialize (BY 7); clear - BY; lia).
  assert (ME0 : 0 <= tga_map_length d * tga_entry_bytes d) by (apply Z.mul_nonneg_nonneg; lia).
  assert (DP0 : tga_map_pos d <= tga_data_pos d) by (unfold tga_data_pos; destruct (tga_has_map d); lia).
  apply trip_check.
  { intros _. destruct SUP as [G|[(T & _)|(M & _)]]; [rewrite G|rewrite T|rewrite M]; cbn; rewrite ?andb_false_r; reflexivity. }
  intros _. apply trip_check; [intros Ht; apply HT in Ht; apply Z.ltb_ge; lia|]. intros L. assert (PM : tga_map_pos d <= asz d) by (clear - L; lia). clear L.
  eapply trip_bind with (Q := fun m => m = (if tga_has_map d then Arr (tga_map_length d * tga_entry_bytes d) (fun i => aget d (tga_map_pos d + i)) else Arr 0 (fun _ => 0),
                                            if tga_has_map d then tga_entry_bytes d else 0, tga_data_pos d) /\ tga_data_pos d <= asz d).
  { unfold tga_data_pos in *. destruct (tga_has_map d).
    - apply trip_check; [intros Ht; apply HT in Ht; apply Z.ltb_ge; lia|]. intros L. assert (PM2 : tga_map_pos d + tga_map_length d * tga_entry_bytes d <= asz d) by (clear - L; lia).
      rewrite slice_ok by lia. cbn. auto.
    - cbn. rewrite Z.add_0_r. auto. }
  intros m (-> & DP).
  assert (IBE : (if tga_mapped d then tga_depth d / 8 else if tga_mapped d then (if tga_has_map d then tga_entry_bytes d else 0) else if tga_gray d then 1 else tga_depth d / 8) = tga_pixel_bytes d).
  { unfold tga_pixel_bytes. destruct (tga_mapped d) eqn:M; auto. destruct (tga_gray d) eqn:G; auto. exfalso. unfold tga_mapped, tga_gray in M, G.
    apply orb_true_iff in M, G. rewrite !Z.eqb_eq in M, G. clear - M G. lia. }
  rewrite IBE.
  assert (IB0 : 0 <= tga_pixel_bytes d) by (unfold tga_pixel_bytes, tga_depth; specialize (BY 16); destruct (tga_gray d); clear - BY; lia).
  assert (NUM0 : 0 <= tga_width d * tga_height d) by (apply Z.mul_nonneg_nonneg; lia).
  assert (NB0 : 0 <= tga_width d * tga_height d * tga_pixel_bytes d) by (apply Z.mul_nonneg_nonneg; lia).
  eapply trip_bind with (Q := fun pix => asz pix = tga_width d * tga_height d * tga_pixel_bytes d /\
     (forall i k, 0 <= i < tga_width d * tga_height d -> 0 <= k < tga_pixel_bytes d -> aget pix (i * tga_pixel_bytes d + k) = stored i k)).
  { destruct PL as [(RL & ST)|(RL & ks & OK & HAS & TOT & ST)]; rewrite RL.
    - apply trip_check; [intros Ht; apply HT in Ht; apply Z.ltb_ge; apply Ht; auto|]. intros L.
      assert (L2 : tga_data_pos d + tga_width d * tga_height d * tga_pixel_bytes d <= asz d) by (clear - L; lia). rewrite slice_ok by lia. cbn [trip asz aget].
      split; auto. intros i k Hi Hk. rewrite ST. f_equal. ring.
    - pose proof (rle_loop_ok (Z.to_nat (tga_pixel_bytes d)) d (tga_width d * tga_height d) B ks OK (Z.to_nat (tga_width d * tga_height d)) (tga_data_pos d) 0
        (Arr (tga_width d * tga_height d * tga_pixel_bytes d) (fun _ => 0)) HAS) as T.
      rewrite Z2Nat.id in T by auto. pose proof (packed_fuel ks _ OK) as FU.
      specialize (T ltac:(lia) ltac:(lia) ltac:(lia) eq_refl).
      destruct (rle_loop _ _ _ _ _ _ _) as [o| |]; cbn in T; [|congruence|congruence]. cbn. destruct T as (S & F & _). split; auto.
      intros i k Hi Hk. rewrite ST. rewrite <- (F i k) by lia. f_equal. }
  intros pix (SP & FP). pose proof (tga_finish d stored pix B SUP SP FP ltac:(auto)) as T.
  cbv beta zeta in T |- *. destruct (obind _ _); cbn in T |- *; auto; congruence.
Qed.
