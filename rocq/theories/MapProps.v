(** C10, C11, C52: the dictionary of identifiers. *)
From Verif Require Import Prelude Utf8Model Utf8Spec UniioModel StringsModel StringsSpec StringsRun MapModel MapSpec MapProofs.
From Coq Require String.
Import String.StringSyntax.
Local Open Scope string_scope.
Local Open Scope list_scope.
Local Open Scope Z_scope.

(** C10.  Every history of calls on a new map behaves as the finite map
    [mtrace] describes, whatever the keys, their hashes, the form they are given
    in, the initial allocation and the contents of fresh memory.  Keys are
    restricted to the symbols the encoder writes correctly ([good_symbol], see
    C08); without that the claim is false, see below. *)
Theorem C10_map_is_a_dictionary : forall e0 alloc h,
  0 <= alloc < 2 ^ 50 -> Forall mem_always (map fst h) -> Forall mop_ok (map snd h) ->
  mops_size (map snd h) < 2 ^ 55 ->
  exists rs m d, mrun (map_create e0 alloc) h = Some (rs, m) /\ mtrace [] (map snd h) rs d.
Proof.
  intros e0 alloc h A M O B. destruct (map_full e0 alloc h A M O B) as (rs & m & L & E & _ & T & _). eauto.
Qed.
Print Assumptions C10_map_is_a_dictionary.

Definition e_map : oenv := mkOenv (fun _ => true) (fun i => 65 + i mod 26).
Definition at_once (ops : list mop) : list (oenv * mop) := map (fun op => (e_map, op)) ops.

(** "ab" and "ba" have the same hash; the identifier is read from "  ab ba=". *)
Definition map_input : input := mkIn (str "  ab ba=") 2.
Definition map_example : list mop :=
  [MAdd (KStr (encs [97; 98])) 5; MAdd (KUtf8 [98; 97]) 7; MAdd (KStr (encs [97; 98])) 9; MGet (KUtf8 [97; 98]);
   MGet (KIo map_input); MSet (KStr (encs [98; 97])) 8; MGetAt 256; MToString 256; MReserve (KStr (encs [98; 97]));
   MGetIndex (KStr (encs [99])); MSetAt 3 1; MToString 3; MAdd (KStr (encs [])) 1].

Example C10_example :
  Forall mop_ok map_example /\ Forall mem_always (map fst (at_once map_example)) /\
  option_map fst (mrun (map_create e_map 0) (at_once map_example)) =
    Some [MNum 195 None; MNum 256 None; MNum SIZE_MAX None; MNum 5 None;
          MNum 5 (Some (32, mkIn (str "  ab ba=") 5)); MNum 256 None; MNum 8 None; MText (Some (str "ba")); MNum 256 None;
          MNum SIZE_MAX None; MNum (-1) None; MText None; MNum SIZE_MAX None].
Proof.
  split; [|split].
  - unfold map_example. repeat (apply Forall_cons || apply Forall_nil); cbn [mop_ok]; try lia;
      try (eexists _, None; constructor; repeat (apply Forall_cons || apply Forall_nil); unfold good_symbol; vm_compute; intuition congruence).
    exists [97; 98], (Some (32, mkIn (str "  ab ba=") 5)).
    apply (key_io [32; 32] 97 [98] 32 (str "ba=")).
    + left. reflexivity.
    + repeat (apply Forall_cons || apply Forall_nil); reflexivity.
    + unfold ident_next. vm_compute. discriminate.
    + unfold code_point. lia.
  - apply Forall_forall. intros e H. apply in_map_iff in H as (p & <- & H). apply in_map_iff in H as (op & <- & H). intros n _; reflexivity.
  - vm_compute. reflexivity.
Qed.

(** C10 is false for keys with symbols outside the ranges the encoder handles:
    U+1000 and U+21000 are different one-symbol keys, but share an entry. *)
Theorem C10_distinct_keys_interfere_refuted :
  option_map fst (mrun (map_create e_map 0) (at_once [MAdd (KUtf8 [0x1000]) 5; MGet (KUtf8 [0x21000])])) =
    Some [MNum 0 None; MNum 5 None].
Proof. vm_compute. reflexivity. Qed.
Print Assumptions C10_distinct_keys_interfere_refuted.

(** A key given as a string with such a symbol (U+0900, the three bytes E0 A4
    80) is read past its terminator: what the call does depends on the memory
    after the key ([None]).  The bytes already stored are two, E4 80, so the
    next read starts inside the symbol. *)
Theorem C10_key_read_past_its_end_refuted :
  map_add e_map (map_create e_map 0) (KStr [0xE0; 0xA4; 0x80]) 5 = None /\
  utf8_to_string 0x900 = [0xE4; 0x80] /\ enc 0x900 = [0xE0; 0xA4; 0x80].
Proof. vm_compute. auto. Qed.
Print Assumptions C10_key_read_past_its_end_refuted.

(** C11.  The index a successful [map_add] returned for a key keeps naming that
    entry after every later history [h2]: lookups by any form of the key give
    it, its text is the key, and reading and writing through it or through the
    key is the same. *)
Theorem C11_index_names_the_key_for_ever : forall e0 alloc h1 e k cs x v h2 rs1 m1 r m2 rs2 m3,
  0 <= alloc < 2 ^ 50 ->
  Forall mem_always (map fst (h1 ++ (e, MAdd k v) :: h2)) -> Forall mop_ok (map snd (h1 ++ (e, MAdd k v) :: h2)) ->
  mops_size (map snd (h1 ++ (e, MAdd k v) :: h2)) < 2 ^ 54 ->
  key_of k cs x ->
  mrun (map_create e0 alloc) h1 = Some (rs1, m1) -> mexec e m1 (MAdd k v) = Some (MNum r x, m2) -> r <> SIZE_MAX ->
  mrun m2 h2 = Some (rs2, m3) ->
  map_to_string m3 r = Some (Some (encs cs)) /\
  forall e' k' x', mem_always e' -> key_of k' cs x' -> src_size k' < 2 ^ 54 ->
    (exists m', map_get_index e' m3 k' = Some (r, x', m')) /\
    (exists u m', map_get e' m3 k' = Some (u, x', m') /\ map_get_by_index m3 r = Some u) /\
    (forall u, exists m' m'', map_set e' m3 k' u = Some (r, x', m') /\ map_get_by_index m' r = Some u
                        /\ map_set_by_index m3 r u = Some (0, m'') /\ exists m4, map_get e' m'' k' = Some (u, x', m4)).
Proof. exact index_stable. Qed.
Print Assumptions C11_index_names_the_key_for_ever.

Example C11_example :
  option_map fst (mrun (map_create e_map 0) (at_once
    [MAdd (KStr (encs [97; 98])) 5; MAdd (KUtf8 [98; 97]) 7; MAdd (KUtf8 [195]) 1; MSet (KStr (encs [97; 98])) 4;
     MAdd (KUtf8 [1; 194]) 3; MToString 256; MGetAt 256; MGetIndex (KStr (encs [98; 97]))])) =
  Some [MNum 195 None; MNum 256 None; MNum 257 None; MNum 195 None; MNum 258 None; MText (Some [98; 97]); MNum 7 None; MNum 256 None].
Proof. vm_compute. reflexivity. Qed.

(** C52.  After any history, looking a key up leaves its text as the last key
    read, and so does reserving a key already present; reserving a new key
    leaves none. *)
Theorem C52_last_read_is_the_key_looked_up : forall e0 alloc h rs m e k cs x,
  0 <= alloc < 2 ^ 50 -> Forall mem_always (map fst h) -> Forall mop_ok (map snd h) ->
  mops_size (map snd h) < 2 ^ 54 -> mrun (map_create e0 alloc) h = Some (rs, m) ->
  mem_always e -> key_of k cs x -> cs <> [] -> src_size k < 2 ^ 54 ->
  (exists r m', map_get_index e m k = Some (r, x, m') /\ map_last_read m' = Some (Some (encs cs))) /\
  (exists r m', map_get e m k = Some (r, x, m') /\ map_last_read m' = Some (Some (encs cs))) /\
  (exists r m', map_reserve e m k = Some (r, x, m') /\
      map_last_read m' = Some (match map_get_index e m k with Some (i, _, _) => if i =? SIZE_MAX then None else Some (encs cs) | None => None end)).
Proof. exact last_read_ok. Qed.
Print Assumptions C52_last_read_is_the_key_looked_up.

Example C52_example :
  match mrun (map_create e_map 0) (at_once [MAdd (KStr (encs [97; 98])) 5; MGet (KUtf8 [98; 97])]) with
  | Some (_, m) => map_last_read m = Some (Some [98; 97]) /\
      match mexec e_map m (MReserve (KUtf8 [98; 97])) with Some (r, m) => r = MNum 256 None /\ map_last_read m = Some None | None => False end
  | None => False
  end.
Proof. vm_compute. auto. Qed.
