(** C05, C06, C07, C51: character input and buffered output. *)
From Verif Require Import Prelude Utf8Model Utf8Spec Utf8Proofs UniioModel UniioSpec UniioProofs.
From Coq Require String.
Import String.StringSyntax.
Local Open Scope string_scope.
Local Open Scope list_scope.
Local Open Scope Z_scope.

(** C05.  Reading the UTF-8 encoding of any list of code points gives exactly
    this list, then the end of input. *)
Theorem C05_reading_decodes : forall cs, Forall code_point cs ->
  reads uni_scan_char EOF32 (in_set_buffer (encs cs)) cs.
Proof. exact reads_buffer. Qed.
Print Assumptions C05_reading_decodes.

Example C05_example :
  let io := in_set_buffer (encs [0x43F; 65; 0x20AC; 0x1F600]) in
  let '(a, io) := uni_scan_char io in let '(b, io) := uni_scan_char io in
  let '(c, io) := uni_scan_char io in let '(d, io) := uni_scan_char io in
  (a, b, c, d, fst (uni_scan_char io)) = (0x43F, 65, 0x20AC, 0x1F600, EOF32).
Proof. vm_compute. reflexivity. Qed.

(** C06.  A symbol read from its UTF-8 encoding, anywhere in any input, and
    pushed back leaves the input as it was; so does the end of input. *)
Theorem C06_unscan_restores_partial : forall pre c rest,
  code_point c -> zlen (pre ++ enc c ++ rest) < two64 ->
  let io := mkIn (pre ++ enc c ++ rest) (zlen pre) in
  let '(c', io') := uni_scan_char io in c' = c /\ uni_unscan_char io' c' = (0, io).
Proof. exact unscan_enc. Qed.
Print Assumptions C06_unscan_restores_partial.

Theorem C06_unscan_end : forall io, 0 <= in_pos io -> in_pos io = in_size io -> in_size io < two64 ->
  uni_scan_char io = (EOF32, io) /\ uni_unscan_char io EOF32 = (0, io).
Proof. exact unscan_end. Qed.
Print Assumptions C06_unscan_end.

(** C06 for arbitrary bytes: the input is restored exactly when the number of
    bytes read is the size of the canonical encoding of the symbol. *)
Theorem C06_unscan_exact : forall io c io', uni_scan_char io = (c, io') ->
  0 <= in_pos io' <= in_size io' -> in_size io' < two63 ->
  (snd (uni_unscan_char io' c) = io
   <-> in_data io' = in_data io /\ in_pos io' - in_pos io = utf8_size c /\ 0 <= in_pos io).
Proof. exact unscan_general. Qed.
Print Assumptions C06_unscan_exact.

(** C06.  Text just read is pushed back by [uni_unscan]. *)
Theorem C06_unscan_text : forall pre s rest, zlen (pre ++ s ++ rest) < two64 ->
  uni_unscan (mkIn (pre ++ s ++ rest) (zlen pre + zlen s)) s = (0, mkIn (pre ++ s ++ rest) (zlen pre)).
Proof. exact unscan_str. Qed.
Print Assumptions C06_unscan_text.

Example C06_example :
  let io := mkIn (enc 65 ++ enc 0x416 ++ enc 66) 1 in
  uni_scan_char io = (0x416, mkIn (in_data io) 3)
  /\ uni_unscan_char (mkIn (in_data io) 3) 0x416 = (0, io)
  /\ zlen ([65] ++ enc 0x416 ++ enc 66) < two64.
Proof. vm_compute. auto. Qed.

(** C06 is false for bytes that are not UTF-8: after "A\x80" reading the second
    byte and pushing it back returns to the first one. *)
Theorem C06_unscan_refuted :
  exists io, Forall (fun b => 0 < b < 256) (in_data io) /\ 0 <= in_pos io < in_size io
    /\ let '(c, io') := uni_scan_char io in
       fst (uni_unscan_char io' c) = 0
       /\ fst (uni_scan_char (snd (uni_unscan_char io' c))) <> c.
Proof.
  exists (mkIn [65; 0x80] 1). split; [repeat constructor; lia|]. split; [vm_compute; split; congruence|].
  vm_compute. split; [reflexivity|discriminate].
Qed.
Print Assumptions C06_unscan_refuted.

(** C51.  [uni_scan_identifier] reads exactly the longest identifier at the
    current position and leaves the input right after it. *)
Theorem C51_scan_identifier : forall pre c ids rest,
  utf8_is_letter c = true ->
  Forall (fun c => (utf8_is_letter c || utf8_is_digit c) = true) ids ->
  Forall code_point rest ->
  (forall d r, rest = d :: r -> (utf8_is_letter d || utf8_is_digit d) = false) ->
  zlen (pre ++ encs (c :: ids) ++ encs rest) < two64 ->
  uni_scan_identifier (mkIn (pre ++ encs (c :: ids) ++ encs rest) (zlen pre))
  = Some (encs (c :: ids), mkIn (pre ++ encs (c :: ids) ++ encs rest) (zlen pre + zlen (encs (c :: ids)))).
Proof. exact scan_identifier_full. Qed.
Print Assumptions C51_scan_identifier.

(** C51.  When no letter is at the current position nothing is read. *)
Theorem C51_scan_no_identifier : forall pre rest, Forall code_point rest ->
  match rest with [] => True | c :: _ => utf8_is_letter c = false end ->
  zlen (pre ++ encs rest) < two64 ->
  uni_scan_identifier (mkIn (pre ++ encs rest) (zlen pre)) = Some ([], mkIn (pre ++ encs rest) (zlen pre)).
Proof. exact scan_identifier_none. Qed.
Print Assumptions C51_scan_no_identifier.

Example C51_example :
  uni_scan_identifier (mkIn (encs [40; 0x444; 49; 95; 32; 66]) 1)
  = Some (encs [0x444; 49; 95], mkIn (encs [40; 0x444; 49; 95; 32; 66]) 5)
  /\ uni_scan_identifier (mkIn (encs [40; 0x444]) 0) = Some ([], mkIn (encs [40; 0x444]) 0).
Proof. vm_compute. auto. Qed.

(** C07.  For every initial buffer size and every history of prints (texts and
    single characters) with memory available, the extracted string is the
    concatenation of everything printed and each call returns the number of
    bytes it printed. *)
Theorem C07_output_is_concatenation : forall e0 size (h : list (oenv * pop)),
  0 <= size < 2 ^ 60 -> o_alloc e0 (size + 1) = true ->
  Forall (fun ep => forall n, 0 < n < 2 ^ 61 -> o_alloc (fst ep) n = true) h ->
  Forall (fun ep => Forall (fun b => b <> 0) (pop_text (snd ep))) h ->
  zlen (concat (map (fun ep => pop_text (snd ep)) h)) < 2 ^ 60 ->
  exists io rs io', out_set_buffer e0 size = Some (Some io) /\ prun io h = Some (rs, io')
    /\ rs = map (fun ep => zlen (pop_text (snd ep))) h
    /\ out_extract_buffer io' = Some (concat (map (fun ep => pop_text (snd ep)) h)).
Proof. exact output_success. Qed.
Print Assumptions C07_output_is_concatenation.

(** C07 when memory may run out in any of the calls: such a call returns -1 and
    prints nothing, the others are unaffected.  [ms] says for which calls the
    allocator is known to answer. *)
Theorem C07_output_with_failures : forall e0 size h ms,
  0 <= size < 2 ^ 60 -> o_alloc e0 (size + 1) = true ->
  Forall2 (fun ep b => b = true -> forall n, 0 < n < 2 ^ 61 -> o_alloc (fst ep) n = true) h ms ->
  Forall (fun ep => Forall (fun b => b <> 0) (pop_text (snd ep))) h ->
  zlen (flat_map (fun ep => pop_text (snd ep)) h) < 2 ^ 60 ->
  exists io rs io' l, out_set_buffer e0 size = Some (Some io) /\ prun io h = Some (rs, io')
    /\ printed_all (combine ms (map (fun ep => pop_text (snd ep)) h)) rs [] l
    /\ out_extract_buffer io' = Some l.
Proof. exact output_ok. Qed.
Print Assumptions C07_output_with_failures.

Definition oe_ok : oenv := mkOenv (fun _ => true) (fun k => 200 + k).
Definition oe_no : oenv := mkOenv (fun _ => false) (fun k => 200 + k).

Example C07_example :
  match out_set_buffer oe_ok 2 with
  | Some (Some io) =>
      match prun io [(oe_ok, PText (str "ab")); (oe_no, PText (str "lost")); (oe_ok, PChar 0x416); (oe_ok, PText (str "0123456789abcdef"))] with
      | Some (rs, io') => rs = [2; -1; 2; 16] /\ out_extract_buffer io' = Some (str "ab" ++ enc 0x416 ++ str "0123456789abcdef")
      | None => False
      end
  | _ => False
  end.
Proof. vm_compute. auto. Qed.
