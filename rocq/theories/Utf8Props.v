(** C04, C08, C49, C50: UTF-8, code pages, letters, first byte of a symbol. *)
From Verif Require Import Prelude Utf8Model Utf8Spec Utf8Proofs.
From Coq Require Import String.
Local Open Scope string_scope.
Local Open Scope list_scope.
Local Open Scope Z_scope.

(** C04.  The decoder is right for every code point: reading the standard
    encoding (whatever follows it) gives the code point, the size predicted
    from the code point and from the first byte is the real one. *)
Theorem C04_decode_standard : forall c rest, code_point c ->
  utf8_size c = zlen (enc c)
  /\ (exists b r, enc c = b :: r /\ utf8_symbol_size b = zlen (enc c))
  /\ utf8_convert (enc c ++ rest) = Some c.
Proof. exact decode_standard. Qed.
Print Assumptions C04_decode_standard.

(** C04.  The encoder writes the standard encoding exactly for the code points
    outside U+0800..U+0FFF and U+10000..U+3FFFF. *)
Theorem C04_encoder_exact : forall c, code_point c ->
  (utf8_to_string c = enc c
   <-> c < 0x800 \/ 0x1000 <= c < 0x10000 \/ 0x40000 <= c).
Proof.
  exact (fun c H => conj
    (fun E => match proj1 (to_string_iff c H) E with
              | or_introl a => or_introl (proj2 a)
              | or_intror (or_introl a) => or_intror (or_introl a)
              | or_intror (or_intror a) => or_intror (or_intror (proj1 a)) end)
    (fun E => proj2 (to_string_iff c H)
       match E with
       | or_introl a => or_introl (conj (proj1 H) a)
       | or_intror (or_introl a) => or_intror (or_introl a)
       | or_intror (or_intror a) => or_intror (or_intror (conj a (proj2 H))) end)).
Qed.
Print Assumptions C04_encoder_exact.

(** C04, round trip (partial: the code points the encoder gets wrong are
    missing). *)
Theorem C04_round_trip_partial : forall c rest,
  0 <= c < 0x800 \/ 0x1000 <= c < 0x10000 \/ 0x40000 <= c < 0x200000 ->
  zlen (utf8_to_string c) = utf8_size c
  /\ (exists b r, utf8_to_string c = b :: r /\ utf8_symbol_size b = utf8_size c)
  /\ utf8_convert (utf8_to_string c ++ rest) = Some c.
Proof. exact round_trip. Qed.
Print Assumptions C04_round_trip_partial.

(** C04 is false: U+0905 (Devanagari A) is written as E4 85, which is neither
    its encoding nor a complete symbol, and U+1F600 as three bytes. *)
Theorem C04_round_trip_refuted :
  exists c, code_point c /\ c <= 0x10FFFF
    /\ zlen (utf8_to_string c) <> utf8_size c
    /\ utf8_convert (utf8_to_string c) <> Some c
    /\ utf8_convert (utf8_to_string c ++ enc 65) <> Some c.
Proof.
  exists 0x905. split; [unfold code_point; lia|]. split; [lia|].
  repeat split; vm_compute; discriminate.
Qed.
Print Assumptions C04_round_trip_refuted.

Example C04_example :
  enc 0x416 = [208; 150] /\ utf8_to_string 0x416 = [208; 150]
  /\ utf8_to_string 0x20AC = enc 0x20AC /\ utf8_convert (enc 0x1F600) = Some 0x1F600
  /\ utf8_to_string 0x905 = [228; 133] /\ enc 0x905 = [224; 164; 133].
Proof. vm_compute. repeat split; reflexivity. Qed.

(** C08.  Every text in CP866 is converted to the UTF-8 encoding of the code
    points the standard assigns to its bytes, and converted back to itself. *)
Theorem C08_cp866_round_trip : forall bs, Forall (fun b => 0 <= b < 256) bs ->
  exists cs, Forall2 (stands_for cp866_standard) bs cs
    /\ utf8_from_cp866 bs = encs cs /\ utf8_to_cp866 (encs cs) = Some bs.
Proof. exact cp866_text. Qed.
Print Assumptions C08_cp866_round_trip.

(** C08.  The same for CP1251; byte 0x98 is the one the code page leaves
    undefined. *)
Theorem C08_cp1251_round_trip : forall bs, Forall (fun b => 0 <= b < 256 /\ b <> 0x98) bs ->
  exists cs, Forall2 (stands_for cp1251_standard) bs cs
    /\ utf8_from_cp1251 bs = encs cs /\ utf8_to_cp1251 (encs cs) = Some bs.
Proof. exact cp1251_text. Qed.
Print Assumptions C08_cp1251_round_trip.

(** C08.  A symbol outside the code page becomes the substitute byte 0x1A. *)
Theorem C08_unknown_symbols : forall c, 0 <= c ->
  (~ In c cp866_standard -> char_to_cp866 c = 0x1A)
  /\ (~ In c cp1251_standard -> char_to_cp1251 c = 0x1A).
Proof. exact (fun c H => conj (to_cp866_unknown c H) (to_cp1251_unknown c H)). Qed.
Print Assumptions C08_unknown_symbols.

Example C08_example :
  utf8_from_cp866 [143; 224; 33] = encs [1055; 1088; 33]
  /\ utf8_to_cp1251 (encs [1055; 1088; 33]) = Some [207; 240; 33]
  /\ ~ In 0x905 cp866_standard.
Proof.
  split; [vm_compute; reflexivity|]. split; [vm_compute; reflexivity|].
  intros H. unfold cp866_standard in H. cbn [In] in H. repeat (destruct H as [H|H]; [discriminate H|]). exact H.
Qed.

(** C49.  Capitalisation is right for every letter except small YO, and leaves
    other characters alone. *)
Theorem C49_upper_case_partial : forall big small,
  In (big, small) (russian_letters ++ latin_letters) -> small <> 1105 ->
  utf8_to_upper small = big /\ utf8_to_upper big = big.
Proof. exact to_upper_pairs. Qed.
Print Assumptions C49_upper_case_partial.

Theorem C49_upper_case_refuted :
  exists big small, In (big, small) russian_letters /\ utf8_to_upper small <> big.
Proof. exists 1025, 1105. split; [unfold russian_letters; apply in_or_app; right; left; reflexivity|]. vm_compute. discriminate. Qed.
Print Assumptions C49_upper_case_refuted.

(** C49.  The letters and digits accepted in identifiers are exactly the Latin
    and Russian letters, '_' and the decimal digits. *)
Theorem C49_identifier_characters : forall c,
  ident_char c <-> (utf8_is_letter c || utf8_is_digit c) = true.
Proof. exact ident_char_ok. Qed.
Print Assumptions C49_identifier_characters.

(** C49.  Every identifier is transliterated to ASCII identifier bytes. *)
Theorem C49_transliteration_ascii : forall cs, Forall ident_char cs ->
  exists out, utf8_transliteration (encs cs) = Some out /\ Forall ascii_ident_byte out.
Proof. exact translit_text. Qed.
Print Assumptions C49_transliteration_ascii.

Example C49_example :
  utf8_transliteration (encs [1060; 1091; 1085; 1082; 1094; 1080; 1103; 49]) = Some (str "Funktsiia1")
  /\ forallb (fun c => utf8_is_letter c || utf8_is_digit c) [1060; 1091; 1085; 1082; 1094; 1080; 1103; 49] = true.
Proof. vm_compute. split; reflexivity. Qed.

(** C49.  But distinct identifiers may become one: two functions then get the
    same name in the LLVM output. *)
Theorem C49_transliteration_injective_refuted :
  exists cs ds, Forall ident_char cs /\ Forall ident_char ds /\ cs <> ds
    /\ utf8_transliteration (encs cs) = utf8_transliteration (encs ds)
    /\ exists c r, utf8_transliteration (encs cs) = Some (c :: r).
Proof.
  exists [1072], [97]. split; [constructor; [apply ident_char_ok; reflexivity|constructor]|].
  split; [constructor; [apply ident_char_ok; reflexivity|constructor]|]. split; [discriminate|].
  split; [vm_compute; reflexivity|]. exists 97, []. vm_compute. reflexivity.
Qed.
Print Assumptions C49_transliteration_injective_refuted.

(** C50.  In UTF-8 text the first byte of the symbol a byte belongs to is found
    from every byte of the symbol. *)
Theorem C50_first_byte : forall cs1 c cs2 k, code_point c -> 0 <= k < zlen (enc c) ->
  utf8_to_first_byte (encs (cs1 ++ c :: cs2)) (Z.to_nat (zlen (encs cs1) + k)) = Some (zlen (encs cs1)).
Proof. exact first_byte_text. Qed.
Print Assumptions C50_first_byte.

Example C50_example :
  utf8_to_first_byte (encs [65; 0x20AC; 66]) 3 = Some 1 /\ zlen (enc 0x20AC) = 3.
Proof. vm_compute. split; reflexivity. Qed.

(** C50 is false for text that is not UTF-8: the search leaves the string on
    the left. *)
Theorem C50_first_byte_refuted :
  exists s i, (i < List.length s)%nat /\ Forall (fun b => 0 < b < 256) s
    /\ utf8_to_first_byte s i = None.
Proof. exists [0x80; 0x81], 1%nat. split; [cbn; lia|]. split; [repeat constructor; lia|]. vm_compute. reflexivity. Qed.
Print Assumptions C50_first_byte_refuted.
