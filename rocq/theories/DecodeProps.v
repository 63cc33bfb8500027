(* Theorems about the BMP, TGA and Radiance HDR decoders: C43, C44, C45. *)
From Verif Require Import Common DecodeModel DecodeSpec DecodeProofs HdrProofs.
From Coq Require Import Psatz Reals.
Open Scope Z_scope.

Lemma byte_list l : forallb (fun b => (0 <=? b) && (b <? 256)) l = true -> Z.of_nat (List.length l) < 2 ^ 63 -> byte_data (of_list l).
Proof.
  intros F L. split; [cbn [of_list asz]; lia|]. intros i. cbn [of_list aget]. destruct (nth_in_or_default (Z.to_nat i) l 0) as [H|E]; [|rewrite E; lia].
  rewrite forallb_forall in F. apply F in H. apply andb_true_iff in H. lia.
Qed.
Definition le32 (v : Z) : list Z := [v mod 256; v / 256 mod 256; v / 65536 mod 256; v / 16777216 mod 256].

(** C43 *)
(* For every byte string of less than 2 GiB whose header sizes fit the decoder's int arithmetic: no undefined behaviour *)
Theorem C43_memory_safe_partial d : byte_data d -> asz d < 2 ^ 31 -> bmp_int_sizes d -> read_bmp d <> UB.
Proof.
  intros B S (H1 & H2 & H3) E. pose proof (read_bmp_trip Safe d B ltac:(auto) ltac:(discriminate)) as T. rewrite E in T. cbn in T. discriminate.
Qed.
(* What is decoded is what the format says, and a file shorter than its header claims is never decoded; any byte string *)
Theorem C43_content d r : byte_data d -> read_bmp d = Ok r -> bmp_decoded d r.
Proof.
  intros B E. pose proof (read_bmp_trip Loose d B ltac:(congruence) ltac:(discriminate)) as T. rewrite E in T. exact T.
Qed.
Theorem C43_truncated_rejected d r : byte_data d -> 0 < bmp_width d -> bmp_height d <> 0 ->
  asz d < bmp_offset d + bmp_stride d * Z.abs (bmp_height d) -> read_bmp d <> Ok r.
Proof. intros B W H S E. destruct (C43_content d r B E) as (E1 & E2 & _ & _ & _ & E3 & _). rewrite E1, E2 in E3. lia. Qed.
(* Valid files are accepted *)
Theorem C43_valid_decodes d : byte_data d -> asz d < 2 ^ 31 -> bmp_int_sizes d -> bmp_valid d -> exists r, read_bmp d = Ok r /\ bmp_decoded d r.
Proof.
  intros B S (H1 & H2 & H3) V. pose proof (read_bmp_trip Total d B ltac:(auto) ltac:(auto)) as T. destruct (read_bmp d); cbn in T; [eauto|congruence|congruence].
Qed.
(* The full claim is false: these 54-byte files make the decoder overflow an int *)
Definition bmp_header (w h bpp : Z) : list Z :=
  [66; 77; 0; 0; 0; 0; 0; 0; 0; 0; 54; 0; 0; 0; 40; 0; 0; 0] ++ le32 w ++ le32 h ++ [1; 0; bpp; 0; 0; 0; 0; 0] ++ repeat 0 20.
Theorem C43_refuted_height : exists d, byte_data d /\ asz d = 54 /\ bmp_width d = 1 /\ read_bmp d = UB.
Proof.
  exists (of_list (bmp_header 1 (2 ^ 31) 24)). split; [apply byte_list; [reflexivity|cbn; lia]|]. split; [reflexivity|]. split; [reflexivity|]. vm_compute. reflexivity.
Qed.
Theorem C43_refuted_width : exists d, byte_data d /\ asz d = 54 /\ bmp_height d = 1 /\ bmp_width d = 1431655766 /\ read_bmp d = UB.
Proof.
  exists (of_list (bmp_header 1431655766 1 24)). split; [apply byte_list; [reflexivity|cbn; lia]|]. split; [reflexivity|]. split; [reflexivity|]. split; [reflexivity|]. vm_compute. reflexivity.
Qed.
(* A 1 x 2 bottom-up 24-bit file meets the hypotheses; its top row is stored last *)
Definition bmp_example := of_list (bmp_header 1 2 24 ++ [1; 2; 3; 0; 4; 5; 6; 0]).
Example C43_nonvacuous : byte_data bmp_example /\ asz bmp_example < 2 ^ 31 /\ bmp_int_sizes bmp_example /\ bmp_valid bmp_example
  /\ bmp_channel bmp_example 0 0 0 = 6 /\ bmp_channel bmp_example 0 1 2 = 1.
Proof. split; [apply byte_list; [reflexivity|cbn; lia]|]. unfold bmp_int_sizes, bmp_valid. vm_compute. intuition congruence. Qed.
Example C43_truncated_nonvacuous : let d := of_list (bmp_header 1 2 24) in byte_data d /\ 0 < bmp_width d /\ bmp_height d <> 0
  /\ asz d < bmp_offset d + bmp_stride d * Z.abs (bmp_height d).
Proof. split; [apply byte_list; [reflexivity|cbn; lia]|]. vm_compute. intuition congruence. Qed.

(** C44 *)
(* Uncompressed files of the supported pixel formats: for every byte string no undefined behaviour *)
Theorem C44_memory_safe_partial d stored : byte_data d -> tga_plain d stored -> tga_supported d stored -> read_tga d <> UB.
Proof.
  intros B P S E. pose proof (read_tga_trip Safe d stored B S (or_introl P) ltac:(discriminate)) as T. rewrite E in T. cbn in T. discriminate.
Qed.
(* Uncompressed files that have all their pixels decode to what the format says *)
Theorem C44_plain_content d stored : byte_data d -> tga_plain d stored -> tga_supported d stored -> 18 <= asz d ->
  tga_data_pos d + tga_width d * tga_height d * tga_pixel_bytes d <= asz d -> exists r, read_tga d = Ok r /\ tga_decoded d stored r.
Proof.
  intros B P S L N. pose proof (read_tga_trip Total d stored B S (or_introl P)) as T.
  assert (0 <= tga_width d * tga_height d * tga_pixel_bytes d).
  { destruct B as (_ & B). pose proof (B 12). pose proof (B (12 + 1)). pose proof (B 14). pose proof (B (14 + 1)). pose proof (B 16).
    assert (0 <= tga_width d) by (unfold tga_width, field16; lia). assert (0 <= tga_height d) by (unfold tga_height, field16; lia).
    assert (0 <= tga_pixel_bytes d) by (unfold tga_pixel_bytes, tga_depth; destruct (tga_gray d); lia).
    apply Z.mul_nonneg_nonneg; auto. apply Z.mul_nonneg_nonneg; auto. }
  specialize (T ltac:(intros _; split; [auto|]; split; [lia|auto])). destruct (read_tga d); cbn in T; [eauto|congruence|congruence].
Qed.
(* Run-length coded files: every sequence of run and raw packets that makes up the image decodes to the pixels it encodes *)
Theorem C44_rle_round_trip d stored : byte_data d -> tga_packed d stored -> tga_supported d stored -> 18 <= asz d ->
  exists r, read_tga d = Ok r /\ tga_decoded d stored r.
Proof.
  intros B P S L. pose proof (read_tga_trip Total d stored B S (or_intror P)) as T.
  destruct P as (RL & ks & _ & HAS & _). pose proof (has_len _ _ _ HAS) as (_ & HL).
  specialize (T ltac:(intros _; split; [auto|]; split; [lia|congruence])). destruct (read_tga d); cbn in T; [eauto|congruence|congruence].
Qed.
(* header: type, map type, first, length, entry bits, width, height, depth, top-down *)
Definition tga_header (ty cmt len ebits w h depth : Z) : list Z :=
  [0; cmt; ty; 0; 0; len; 0; ebits; 0; 0; 0; 0; w; 0; h; 0; depth; 32].
(* The full claim is false: a raw packet longer than the image writes past the pixel buffer *)
Theorem C44_refuted_raw_packet : exists d, byte_data d /\ tga_type d = 11 /\ read_tga d = UB.
Proof.
  exists (of_list (tga_header 11 0 0 0 1 1 8 ++ [1; 7; 7])). split; [apply byte_list; [reflexivity|cbn; lia]|]. split; [reflexivity|]. vm_compute. reflexivity.
Qed.
(* a colour map index is not checked against the map, and a file of type 1 need not have one *)
Theorem C44_refuted_map_index : exists d, byte_data d /\ tga_type d = 1 /\ tga_map_length d = 1 /\ tga_entry_bits d = 24 /\ read_tga d = UB.
Proof.
  exists (of_list (tga_header 1 1 1 24 1 1 8 ++ [1; 2; 3; 5])). split; [apply byte_list; [reflexivity|cbn; lia]|]. repeat (split; [reflexivity|]). vm_compute. reflexivity.
Qed.
Theorem C44_refuted_no_map : exists d, byte_data d /\ tga_type d = 1 /\ tga_has_map d = false /\ read_tga d = UB.
Proof.
  exists (of_list (tga_header 1 0 0 24 1 1 8 ++ [0])). split; [apply byte_list; [reflexivity|cbn; lia]|]. repeat (split; [reflexivity|]). vm_compute. reflexivity.
Qed.
(* a 16-bit true colour file reads three bytes per two-byte pixel *)
Theorem C44_refuted_16bit : exists d, byte_data d /\ tga_type d = 2 /\ tga_depth d = 16 /\ read_tga d = UB.
Proof.
  exists (of_list (tga_header 2 0 0 0 1 1 16 ++ [1; 2])). split; [apply byte_list; [reflexivity|cbn; lia]|]. repeat (split; [reflexivity|]). vm_compute. reflexivity.
Qed.
Definition tga_example := of_list (tga_header 2 0 0 0 1 2 24 ++ [1; 2; 3; 4; 5; 6]).
Example C44_plain_nonvacuous : let stored := fun i k => aget tga_example (18 + i * 3 + k) in
  byte_data tga_example /\ tga_plain tga_example stored /\ tga_supported tga_example stored /\ 18 <= asz tga_example
  /\ tga_data_pos tga_example + tga_width tga_example * tga_height tga_example * tga_pixel_bytes tga_example <= asz tga_example.
Proof.
  split; [apply byte_list; [reflexivity|cbn; lia]|]. split; [split; [reflexivity|intros; reflexivity]|]. split; [right; left; split; [reflexivity|vm_compute; congruence]|].
  split; vm_compute; congruence.
Qed.
(* 3 x 1 grey pixels 9 9 5: a run of two and a raw packet of one *)
Definition tga_rle_example := of_list (tga_header 11 0 0 0 3 1 8 ++ [129; 9; 0; 5]).
Example C44_rle_nonvacuous : exists stored, byte_data tga_rle_example /\ tga_packed tga_rle_example stored /\ tga_supported tga_rle_example stored /\ 18 <= asz tga_rle_example
  /\ stored 0 0 = 9 /\ stored 2 0 = 5.
Proof.
  exists (fun i k => nth (Z.to_nat k) (nth (Z.to_nat i) [[9]; [9]; [5]] []) 0). split; [apply byte_list; [reflexivity|cbn; lia]|]. split.
  - split; [reflexivity|]. exists [Run 2 [9]; Lit [[5]]]. split; [repeat constructor; cbn; lia|]. split; [|split; [reflexivity|intros; reflexivity]].
    split; [vm_compute; congruence|]. split; [vm_compute; congruence|]. intros i v E. do 4 (destruct i as [|i]; [vm_compute in E; injection E as <-; reflexivity|]). exfalso. cbn in E. destruct i; discriminate.
  - split; [left; reflexivity|]. vm_compute. intuition congruence.
Qed.

(** C45 *)
(* For every byte string, header and all: no undefined behaviour, and a decoded image has the size it announces *)
Theorem C45_memory_safe d : byte_data d -> read_hdr d <> UB /\ forall w h o, read_hdr d = Ok (w, h, o) -> 0 < w /\ 0 < h /\ asz o = w * h * 3.
Proof.
  intros B. pose proof (read_hdr_safe d B) as T. split.
  - intros E. rewrite E in T. cbn in T. discriminate.
  - intros w h o E. rewrite E in T. exact T.
Qed.
(* Decoding inverts every encoding: a file of header and rows, each row plain or run-length coded in any way *)
Theorem C45_round_trip d magic lines hs ws w rows : byte_data d -> text_line magic -> Forall text_line lines -> Forall (fun l => l <> []) lines ->
  decimal hs (Z.of_nat (List.length rows)) -> decimal ws w -> 0 < w < 2 ^ 31 -> 0 < Z.of_nat (List.length rows) < 2 ^ 31 ->
  Forall (hdr_row_ok w) rows -> has d 0 (hdr_header magic lines hs ws ++ List.concat (map (hdr_row_bytes w) rows)) ->
  exists o, read_hdr d = Ok (w, Z.of_nat (List.length rows), o)
    /\ forall y x c row, nth_error rows y = Some row -> 0 <= x < w -> 0 <= c < 3 ->
        aget o ((Z.of_nat y * w + x) * 3 + c) = radiance (hdr_value row x c) (hdr_value row x 3).
Proof.
  intros B TM TL NE DH DW W H F HAS. pose proof (read_hdr_ok d magic lines hs ws w rows B TM TL NE DH DW W H F HAS) as T.
  destruct (read_hdr d) as [((w', h'), o)| |]; cbn in T; [|congruence|congruence]. destruct T as (-> & -> & _ & T). eauto.
Qed.
(* "#?R\n" "\n" "-Y 2 +X 2\n": a plain row and a run-length coded row *)
Definition hdr_rows_example : list hdr_row := [FlatRow [[1; 2; 3; 128]; [4; 5; 6; 0]]; RleRow [[CRun 2 7]; [CLit [8; 9]]; [CRun 1 3; CLit [4]]; [CRun 2 136]]].
Definition hdr_bytes_example : list Z := hdr_header [82] [] [50] [50] ++ List.concat (map (hdr_row_bytes 2) hdr_rows_example).
Lemma has_self l : has (of_list l) 0 l.
Proof.
  split; [lia|]. split; [cbn [of_list asz]; lia|]. intros i v E. cbn [of_list aget]. rewrite Z.add_0_l, Nat2Z.id. apply nth_error_nth. exact E.
Qed.
Example C45_nonvacuous : let d := of_list hdr_bytes_example in
  byte_data d /\ text_line [82] /\ decimal [50] 2 /\ Forall (hdr_row_ok 2) hdr_rows_example /\ has d 0 (hdr_header [82] [] [50] [50] ++ List.concat (map (hdr_row_bytes 2) hdr_rows_example)).
Proof.
  split; [apply byte_list; [reflexivity|cbn; lia]|]. split; [repeat constructor; lia|]. split; [split; [discriminate|split; [repeat constructor; lia|reflexivity]]|].
  split; [|apply has_self]. unfold hdr_rows_example. constructor; [|constructor; [|constructor]].
  - cbn [hdr_row_ok]. split; [reflexivity|]. split; [repeat constructor|]. intros a b rest E. cbn in E. discriminate.
  - cbn [hdr_row_ok]. split; [reflexivity|]. split; [|lia]. repeat (constructor; [split; [repeat constructor; cbn; lia|reflexivity]|]). constructor.
Qed.
(** C71 *)
(* The top-down, left-to-right orientation is decoded as stored *)
Theorem C71_standard_orientation_partial d magic lines hs ws w rows : byte_data d -> text_line magic -> Forall text_line lines -> Forall (fun l => l <> []) lines ->
  decimal hs (Z.of_nat (List.length rows)) -> decimal ws w -> 0 < w < 2 ^ 31 -> 0 < Z.of_nat (List.length rows) < 2 ^ 31 ->
  Forall (hdr_row_ok w) rows -> has d 0 (hdr_header magic lines hs ws ++ List.concat (map (hdr_row_bytes w) rows)) ->
  exists o, read_hdr d = Ok (w, Z.of_nat (List.length rows), o)
    /\ forall y x c row, nth_error rows y = Some row -> 0 <= x < w -> 0 <= c < 3 -> aget o ((Z.of_nat y * w + x) * 3 + c) = radiance (hdr_value row x c) (hdr_value row x 3).
Proof. apply C45_round_trip. Qed.
(* The orientation in the resolution line is not applied: "+Y" (rows stored bottom first) decodes like "-Y" although the
   two rows differ *)
Theorem C71_refuted_orientation : exists d d', byte_data d /\ byte_data d' /\ asz d = asz d' /\ (forall i, i <> 5 -> aget d i = aget d' i)
  /\ aget d 5 = 45 /\ aget d' 5 = 43 /\ (exists o, read_hdr d = Ok (1, 2, o) /\ read_hdr d' = Ok (1, 2, o) /\ aget o 0 <> aget o 3).
Proof.
  exists (of_list ([35; 63; 82; 10; 10] ++ [45; 89; 32; 50; 32; 43; 88; 32; 49; 10] ++ [1; 2; 3; 136; 2; 2; 3; 136])), (of_list ([35; 63; 82; 10; 10] ++ [43; 89; 32; 50; 32; 43; 88; 32; 49; 10] ++ [1; 2; 3; 136; 2; 2; 3; 136])).
  split; [apply byte_list; [reflexivity|cbn; lia]|]. split; [apply byte_list; [reflexivity|cbn; lia]|]. split; [reflexivity|]. split.
  - intros i N. cbn [of_list aget app]. destruct (Z.to_nat i) as [|[|[|[|[|[|n]]]]]] eqn:E; try reflexivity. exfalso. lia.
  - split; [reflexivity|]. split; [reflexivity|]. eexists. split; [cbv -[Rdefinitions.RbaseSymbolsImpl.R rgbe]; reflexivity|]. split; [cbv -[Rdefinitions.RbaseSymbolsImpl.R rgbe]; reflexivity|].
    cbn [aget]. unfold rgbe. cbn. lra.
Qed.

Print Assumptions C43_memory_safe_partial.
Print Assumptions C43_content.
Print Assumptions C43_truncated_rejected.
Print Assumptions C43_valid_decodes.
Print Assumptions C43_refuted_height.
Print Assumptions C43_refuted_width.
Print Assumptions C44_memory_safe_partial.
Print Assumptions C44_plain_content.
Print Assumptions C44_rle_round_trip.
Print Assumptions C44_refuted_raw_packet.
Print Assumptions C44_refuted_map_index.
Print Assumptions C44_refuted_no_map.
Print Assumptions C44_refuted_16bit.
Print Assumptions C45_memory_safe.
Print Assumptions C45_round_trip.
Print Assumptions C71_standard_orientation_partial.
Print Assumptions C71_refuted_orientation.
