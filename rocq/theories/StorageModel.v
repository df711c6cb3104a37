(** Model of libs/macro/storage.c and libs/macro/keywords.c over the models of
    the map, the hash table and the string table.  Running out of memory inside
    the three tables is as in their models. *)
From Verif Require Import Prelude Utf8Model UniioModel StringsModel MapModel HashModel.

(** libs/macro/storage.h:29-38 [struct storage]. *)
Record storage := mkStg { st_as : map_t; st_hs : list Z; st_vec : strings }.

(** libs/macro/keywords.c:49-71, the table in [kw_add]; the codes are the values
    of the enumeration in libs/macro/keywords.h:30-58. *)
Definition keywords : list (Z * list (list Z)) :=
  [
   (2, [[35; 105; 110; 99; 108; 117; 100; 101]; [35; 73; 78; 67; 76; 85; 68; 69]; [35; 1087; 1086; 1076; 1082; 1083; 1102; 1095; 1080; 1090; 1100]; [35; 1055; 1054; 1044; 1050; 1051; 1070; 1063; 1048; 1058; 1068]])  (* KW_INCLUDE #include #INCLUDE #подключить #ПОДКЛЮЧИТЬ *);
   (3, [[35; 108; 105; 110; 101]; [35; 76; 73; 78; 69]; [35; 1089; 1090; 1088; 1086; 1082; 1072]; [35; 1057; 1058; 1056; 1054; 1050; 1040]])  (* KW_LINE #line #LINE #строка #СТРОКА *);
   (4, [[35; 100; 101; 102; 105; 110; 101]; [35; 68; 69; 70; 73; 78; 69]; [35; 1086; 1087; 1088; 1077; 1076; 1077; 1083; 1080; 1090; 1100]; [35; 1054; 1055; 1056; 1045; 1044; 1045; 1051; 1048; 1058; 1068]])  (* KW_DEFINE #define #DEFINE #определить #ОПРЕДЕЛИТЬ *);
   (5, [[35; 115; 101; 116]; [35; 83; 69; 84]; [35; 1087; 1077; 1088; 1077; 1086; 1087; 1088; 1077; 1076; 1077; 1083; 1080; 1090; 1100]; [35; 1055; 1045; 1056; 1045; 1054; 1055; 1056; 1045; 1044; 1045; 1051; 1048; 1058; 1068]])  (* KW_SET #set #SET #переопределить #ПЕРЕОПРЕДЕЛИТЬ *);
   (6, [[35; 117; 110; 100; 101; 102]; [35; 85; 78; 68; 69; 70]; [35; 1088; 1072; 1079; 1086; 1087; 1088; 1077; 1076; 1077; 1083; 1080; 1090; 1100]; [35; 1056; 1040; 1047; 1054; 1055; 1056; 1045; 1044; 1045; 1051; 1048; 1058; 1068]])  (* KW_UNDEF #undef #UNDEF #разопределить #РАЗОПРЕДЕЛИТЬ *);
   (7, [[35; 109; 97; 99; 114; 111]; [35; 77; 65; 67; 82; 79]; [35; 1084; 1072; 1082; 1088; 1086]; [35; 1052; 1040; 1050; 1056; 1054]])  (* KW_MACRO #macro #MACRO #макро #МАКРО *);
   (8, [[35; 101; 110; 100; 109]; [35; 69; 78; 68; 77]; [35; 1082; 1086; 1085; 1077; 1094; 1084]; [35; 1050; 1054; 1053; 1045; 1062; 1052]])  (* KW_ENDM #endm #ENDM #конецм #КОНЕЦМ *);
   (9, [[35; 105; 102; 100; 101; 102]; [35; 73; 70; 68; 69; 70]; [35; 1077; 1089; 1083; 1080; 1073; 1099; 1083]; [35; 1045; 1057; 1051; 1048; 1041; 1067; 1051]])  (* KW_IFDEF #ifdef #IFDEF #еслибыл #ЕСЛИБЫЛ *);
   (10, [[35; 105; 102; 110; 100; 101; 102]; [35; 73; 70; 78; 68; 69; 70]; [35; 1077; 1089; 1083; 1080; 1085; 1077; 1073; 1099; 1083]; [35; 1045; 1057; 1051; 1048; 1053; 1045; 1041; 1067; 1051]])  (* KW_IFNDEF #ifndef #IFNDEF #еслинебыл #ЕСЛИНЕБЫЛ *);
   (11, [[35; 105; 102]; [35; 73; 70]; [35; 1077; 1089; 1083; 1080]; [35; 1045; 1057; 1051; 1048]])  (* KW_IF #if #IF #если #ЕСЛИ *);
   (12, [[35; 101; 108; 105; 102]; [35; 69; 76; 73; 70]; [35; 1080; 1085; 1077; 1089; 1083; 1080]; [35; 1048; 1053; 1045; 1057; 1051; 1048]])  (* KW_ELIF #elif #ELIF #инесли #ИНЕСЛИ *);
   (13, [[35; 101; 108; 115; 101]; [35; 69; 76; 83; 69]; [35; 1080; 1085; 1072; 1095; 1077]; [35; 1048; 1053; 1040; 1063; 1045]])  (* KW_ELSE #else #ELSE #иначе #ИНАЧЕ *);
   (14, [[35; 101; 110; 100; 105; 102]; [35; 69; 78; 68; 73; 70]; [35; 1082; 1086; 1085; 1077; 1094; 1077; 1089; 1083; 1080]; [35; 1050; 1054; 1053; 1045; 1062; 1045; 1057; 1051; 1048]])  (* KW_ENDIF #endif #ENDIF #конецесли #КОНЕЦЕСЛИ *);
   (15, [[35; 101; 118; 97; 108]; [35; 69; 86; 65; 76]; [35; 1074; 1099; 1095; 1080; 1089; 1083; 1080; 1090; 1100]; [35; 1042; 1067; 1063; 1048; 1057; 1051; 1048; 1058; 1068]])  (* KW_EVAL #eval #EVAL #вычислить #ВЫЧИСЛИТЬ *);
   (16, [[35; 119; 104; 105; 108; 101]; [35; 87; 72; 73; 76; 69]; [35; 1087; 1086; 1082; 1072]; [35; 1055; 1054; 1050; 1040]])  (* KW_WHILE #while #WHILE #пока #ПОКА *);
   (17, [[35; 101; 110; 100; 119]; [35; 69; 78; 68; 87]; [35; 1082; 1086; 1085; 1077; 1094; 1087]; [35; 1050; 1054; 1053; 1045; 1062; 1055]])  (* KW_ENDW #endw #ENDW #конецп #КОНЕЦП *)
  ].

Definition BEGIN_KEYWORD : Z := 1.
Definition END_KEYWORD : Z := 18.

(** libs/macro/keywords.h:98-101 [kw_is_correct]; the item is converted to the
    32-bit enumeration when it is passed. *)
Definition kw_is_correct (value : Z) : bool :=
  let kw := value mod 4294967296 in (BEGIN_KEYWORD <? kw) && (kw <? END_KEYWORD).

(** libs/macro/keywords.c:23-30 [add_keyword] and 42-72 [kw_add]: the
    spellings in order, the first failure stops. *)
Fixpoint kw_spellings (e : oenv) (m : map_t) (code : Z) (l : list (list Z)) : option (bool * map_t) :=
  match l with
  | [] => Some (true, m)
  | s :: l =>
      do ' (r, _, m) <- map_add e m (KUtf8 s) code;
      if r =? SIZE_MAX then Some (false, m) else kw_spellings e m code l
  end.
Fixpoint kw_add (e : oenv) (m : map_t) (l : list (Z * list (list Z))) : option map_t :=
  match l with
  | [] => Some m
  | (code, s) :: l =>
      do ' (ok, m) <- kw_spellings e m code s;
      if ok : bool then kw_add e m l else Some m
  end.

Definition MAX_MACRO : Z := 256.

(** libs/macro/storage.c:80-92 [storage_create]; the room reserved in the map and
    the string table is a parameter (the C code asks for MAX_MACRO in both). *)
Definition storage_create_for (room : Z) (e : oenv) : option storage :=
  do m <- kw_add e (map_create e room) keywords;
  Some (mkStg m hash_create (strings_create e room)).
Definition storage_create : oenv -> option storage := storage_create_for MAX_MACRO.

(** libs/macro/storage.c:41-55 [add] with 95-103 [storage_add],
    [storage_add_by_utf8], and 105-122 [storage_add_by_io] (without the final
    [uni_unscan_char]): index and what the by-io variant reports. *)
Definition storage_add (e : oenv) (st : storage) (k : keysrc) : option (Z * option (Z * input) * storage) :=
  do ' (key, x, m) <- map_reserve e (st_as st) k;
  do ' (index, hs) <- hash_add (st_hs st) (s64 key) 2;
  do ' (_, m) <- map_set_by_index m key (s64 index);
  let hs := snd (hash_set_by_index hs index 0 ITEM_MAX) in
  let hs := snd (hash_set_by_index hs index 1 0) in
  Some (index, x, mkStg m hs (st_vec st)).

(** libs/macro/storage.c:58-67 [get_index] with 125-133 [storage_get_index],
    [storage_get_index_by_utf8]. *)
Definition storage_get_index (e : oenv) (st : storage) (k : keysrc) : option (Z * storage) :=
  do ' (index, _, m) <- map_get e (st_as st) k;
  Some (if negb (index =? ITEM_MAX) then u64 index else SIZE_MAX, mkStg m (st_hs st) (st_vec st)).

(** libs/macro/storage.c:135-140 [storage_get_by_index]; [Some None] is NULL. *)
Definition storage_get_by_index (st : storage) (id : Z) : option (option bytes) :=
  strings_get (st_vec st) (u64 (hash_get_by_index (st_hs st) id 0)).

(** libs/macro/storage.c:142-151 [storage_get_args_by_index]. *)
Definition storage_get_args_by_index (st : storage) (id : Z) : Z :=
  let count := hash_get_by_index (st_hs st) id 1 in
  if negb (count =? ITEM_MAX) then u64 count else 0.

(** libs/macro/storage.c:161-164 and 197-200: the last string is removed when it
    is the value of the record. *)
Definition drop_value (st : storage) (id : Z) : option strings :=
  if hash_get_by_index (st_hs st) id 0 =? strings_size (st_vec st) - 1
  then do ' (_, v) <- strings_remove (st_vec st); Some v
  else Some (st_vec st).

(** libs/macro/storage.c:154-172 [storage_set_by_index]. *)
Definition storage_set_by_index (e : oenv) (st : storage) (id : Z) (value : bytes) : option (Z * storage) :=
  do v <- drop_value st id;
  do ' (index, v) <- strings_add e v value;
  let hs := if negb (index =? SIZE_MAX) then snd (hash_set_by_index (st_hs st) id 0 (s64 index)) else st_hs st in
  Some (id, mkStg (st_as st) hs v).

(** libs/macro/storage.c:174-183 [storage_set_args_by_index]. *)
Definition storage_set_args_by_index (st : storage) (id args : Z) : Z * storage :=
  (id, mkStg (st_as st) (snd (hash_set_by_index (st_hs st) id 1 (s64 args))) (st_vec st)).

(** libs/macro/storage.c:186-201 [storage_remove_by_index]. *)
Definition storage_remove_by_index (st : storage) (id : Z) : option (Z * storage) :=
  do ' (_, m) <- map_set_by_index (st_as st) (u64 (hash_get_key (st_hs st) id)) ITEM_MAX;
  do v <- drop_value st id;
  let '(r, hs) := hash_remove_by_index (st_hs st) id in
  Some (r, mkStg m hs v).

(** libs/macro/storage.c:204-218 [storage_search] (without [uni_unscan_char]). *)
Definition storage_search (e : oenv) (st : storage) (k : keysrc) : option (Z * option (Z * input) * storage) :=
  do ' (index, x, m) <- map_get_index e (st_as st) k;
  do value <- map_get_by_index m index;
  do r <- (if kw_is_correct value then Some (u64 value) else hash_get_index (st_hs st) (s64 index));
  Some (r, x, mkStg m (st_hs st) (st_vec st)).

(** libs/macro/storage.c:220-223 [storage_to_string]. *)
Definition storage_to_string (st : storage) (id : Z) : option (option bytes) :=
  map_to_string (st_as st) (u64 (hash_get_key (st_hs st) id)).

(** libs/macro/storage.c:225-228 [storage_last_read]. *)
Definition storage_last_read (st : storage) : option (option bytes) := map_last_read (st_as st).
