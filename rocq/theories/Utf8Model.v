(** Model of libs/utils/utf8.c.
    - a [char] is a byte 0..255: all masks applied to a (signed) [char] in this
      file select bits of the low octet only, so sign extension is invisible;
    - [char32_t] values are 0..2^32-1;
    - C strings are lists of non-zero bytes; a read past the end of the list is
      [None]. *)
From Verif Require Import Prelude.
From Coq Require Import String.
Local Open Scope string_scope.
Local Open Scope Z_scope.

(** libs/utils/utf8.c:880-903 [utf8_size]. *)
Definition utf8_size (c : Z) : Z :=
  if Z.land c 0xFFFFFF80 =? 0 then 1
  else if Z.land c 0xFFFFF800 =? 0 then 2
  else if Z.land c 0xFFFF0000 =? 0 then 3
  else if Z.land c 0xFFE00000 =? 0 then 4
  else 0.

(** libs/utils/utf8.c:905-928 [utf8_symbol_size]. *)
Definition utf8_symbol_size (b : Z) : Z :=
  if Z.land b 0x80 =? 0x00 then 1
  else if Z.land b 0xE0 =? 0xC0 then 2
  else if Z.land b 0xF0 =? 0xE0 then 3
  else if Z.land b 0xF8 =? 0xF0 then 4
  else 1.

(** libs/utils/utf8.c:930-940 [utf8_to_first_byte]; the index is a [size_t], so
    stepping left of the first byte gives [SIZE_MAX], outside the string ([None]).
    [index] is the structural argument; the recursion reads [str[index]]. *)
Fixpoint utf8_to_first_byte (s : bytes) (index : nat) : option Z :=
  match nth_error s index with
  | None => None
  | Some b =>
      if Z.land b 0xC0 =? 0x80
      then match index with O => None | S k => utf8_to_first_byte s k end
      else Some (Z.of_nat index)
  end.

(** libs/utils/utf8.c:965-971, the loop of [utf8_convert]. *)
Fixpoint convert_loop (n : nat) (s : bytes) (result : Z) : option Z :=
  match n with
  | O => Some result
  | S n => match s with
           | [] => None
           | b :: s => convert_loop n s
                         (Z.lor (Z.shiftl result 6 mod 4294967296) (Z.land 0x3F b))
           end
  end.

(** libs/utils/utf8.c:942-974 [utf8_convert]. *)
Definition utf8_convert (s : bytes) : option Z :=
  match s with
  | [] => None
  | b :: rest =>
      let size := utf8_symbol_size b in
      let r := Z.land 0xFF b in
      let r := if size =? 2 then Z.land r 0x1F
               else if size =? 3 then Z.land r 0x0F
               else if size =? 4 then Z.land r 0x07 else r in
      convert_loop (Z.to_nat (size - 1)) rest r
  end.

(** libs/utils/utf8.c:990-996: choice of the number of octets. *)
Fixpoint octets_loop (n : nat) (c mask octets : Z) : Z * Z :=
  match n with
  | O => (mask, octets)
  | S n => if (Z.land c mask =? 0) && (1 <? octets)
           then octets_loop n c (Z.shiftr mask 6) (octets - 1)
           else (mask, octets)
  end.

(** libs/utils/utf8.c:998-1003: the octets, most significant first. *)
Fixpoint fill_loop (n : nat) (c mask : Z) : bytes :=
  match n with
  | O => []
  | S k => (Z.lor 0x80 (Z.shiftr (Z.land c mask) (6 * Z.of_nat k) mod 256))
           :: fill_loop k c (Z.shiftr mask 6)
  end.

(** libs/utils/utf8.c:976-1022 [utf8_to_string]: the bytes written before the
    terminating NUL; the returned size is their number. *)
Definition utf8_to_string (c : Z) : bytes :=
  if negb (Z.land c 0xFFE00000 =? 0) then []
  else if Z.land c 0xFFFFFF80 =? 0 then [c]
  else
    let '(mask, octets) := octets_loop 4 c 0x00FC0000 4 in
    match fill_loop (Z.to_nat octets) c mask with
    | [] => []
    | b :: rest =>
        (if octets =? 2 then Z.lor b 0xC0
         else if octets =? 3 then Z.lor b 0xE0
         else if octets =? 4 then Z.lor b 0xF0 else b) :: rest
    end.

Fixpoint lookup {A} (x : Z) (t : list (Z * A)) : option A :=
  match t with
  | [] => None
  | (k, v) :: t => if x =? k then Some v else lookup x t
  end.

(** libs/utils/utf8.c:38-172, the [switch] of [char32_from_cp866]. *)
Definition from_cp866_table : list (Z * Z) :=
  [
   (176, 9617); (177, 9618); (178, 9619); (179, 9474); (180, 9508); (181, 9569);
   (182, 9570); (183, 9558); (184, 9557); (185, 9571); (186, 9553); (187, 9559);
   (188, 9565); (189, 9564); (190, 9563); (191, 9488); (192, 9492); (193, 9524);
   (194, 9516); (195, 9500); (196, 9472); (197, 9532); (198, 9566); (199, 9567);
   (200, 9562); (201, 9556); (202, 9577); (203, 9574); (204, 9568); (205, 9552);
   (206, 9580); (207, 9575); (208, 9576); (209, 9572); (210, 9573); (211, 9561);
   (212, 9560); (213, 9554); (214, 9555); (215, 9579); (216, 9578); (217, 9496);
   (218, 9484); (219, 9608); (220, 9604); (221, 9612); (222, 9616); (223, 9600);
   (240, 1025); (241, 1105); (242, 1028); (243, 1108); (244, 1031); (245, 1111);
   (246, 1038); (247, 1118); (248, 176); (249, 8729); (250, 183); (251, 8730);
   (252, 8470); (253, 164); (254, 9632); (255, 160)].

(** libs/utils/utf8.c:188-314, the [switch] of [char32_from_cp1251]. *)
Definition from_cp1251_table : list (Z * Z) :=
  [
   (128, 1026); (129, 1027); (130, 8218); (131, 1107); (132, 8222); (133, 8230);
   (134, 8224); (135, 8225); (136, 8364); (137, 8240); (138, 1033); (139, 8249);
   (140, 1034); (141, 1036); (142, 1035); (143, 1039); (144, 1106); (145, 8216);
   (146, 8217); (147, 8220); (148, 8221); (149, 8226); (150, 8211); (151, 8212);
   (153, 8482); (154, 1113); (155, 8250); (156, 1114); (157, 1116); (158, 1115);
   (159, 1119); (161, 1038); (162, 1118); (163, 1032); (165, 1168); (168, 1025);
   (170, 1028); (175, 1031); (178, 1030); (179, 1110); (180, 1169); (184, 1105);
   (185, 8470); (186, 1108); (188, 1112); (189, 1029); (190, 1109); (191, 1111);
   (160, 160); (164, 164); (166, 166); (167, 167); (169, 169); (171, 171);
   (172, 172); (173, 173); (174, 174); (176, 176); (177, 177); (181, 181);
   (182, 182); (183, 183); (187, 187)].

(** libs/utils/utf8.c:354-488, the [switch] of [char_to_cp866]. *)
Definition to_cp866_table : list (Z * Z) :=
  [
   (9617, 176); (9618, 177); (9619, 178); (9474, 179); (9508, 180); (9569, 181);
   (9570, 182); (9558, 183); (9557, 184); (9571, 185); (9553, 186); (9559, 187);
   (9565, 188); (9564, 189); (9563, 190); (9488, 191); (9492, 192); (9524, 193);
   (9516, 194); (9500, 195); (9472, 196); (9532, 197); (9566, 198); (9567, 199);
   (9562, 200); (9556, 201); (9577, 202); (9574, 203); (9568, 204); (9552, 205);
   (9580, 206); (9575, 207); (9576, 208); (9572, 209); (9573, 210); (9561, 211);
   (9560, 212); (9554, 213); (9555, 214); (9579, 215); (9578, 216); (9496, 217);
   (9484, 218); (9608, 219); (9604, 220); (9612, 221); (9616, 222); (9600, 223);
   (1025, 240); (1105, 241); (1028, 242); (1108, 243); (1031, 244); (1111, 245);
   (1038, 246); (1118, 247); (176, 248); (8729, 249); (183, 250); (8730, 251);
   (8470, 252); (164, 253); (9632, 254); (160, 255)].

(** libs/utils/utf8.c:504-630, the [switch] of [char_to_cp1251]. *)
Definition to_cp1251_table : list (Z * Z) :=
  [
   (1026, 128); (1027, 129); (8218, 130); (1107, 131); (8222, 132); (8230, 133);
   (8224, 134); (8225, 135); (8364, 136); (8240, 137); (1033, 138); (8249, 139);
   (1034, 140); (1036, 141); (1035, 142); (1039, 143); (1106, 144); (8216, 145);
   (8217, 146); (8220, 147); (8221, 148); (8226, 149); (8211, 150); (8212, 151);
   (8482, 153); (1113, 154); (8250, 155); (1114, 156); (1116, 157); (1115, 158);
   (1119, 159); (1038, 161); (1118, 162); (1032, 163); (1168, 165); (1025, 168);
   (1028, 170); (1031, 175); (1030, 178); (1110, 179); (1169, 180); (1105, 184);
   (8470, 185); (1108, 186); (1112, 188); (1029, 189); (1109, 190); (1111, 191);
   (160, 160); (164, 164); (166, 166); (167, 167); (169, 169); (171, 171);
   (172, 172); (173, 173); (174, 174); (176, 176); (177, 177); (181, 181);
   (182, 182); (183, 183); (187, 187)].

(** libs/utils/utf8.c:21-174 [char32_from_cp866]. *)
Definition char32_from_cp866 (b : Z) : Z :=
  if b <? 0x80 then b
  else if (0x80 <=? b) && (b <=? 0xAF) then b - 0x80 + 1040
  else if (0xE0 <=? b) && (b <=? 0xEF) then b - 0xE0 + 1088
  else match lookup b from_cp866_table with Some c => c | None => 65533 end.

(** libs/utils/utf8.c:176-316 [char32_from_cp1251]. *)
Definition char32_from_cp1251 (b : Z) : Z :=
  if b <? 0x80 then b
  else if 0xC0 <=? b then b - 0xC0 + 1040
  else match lookup b from_cp1251_table with Some c => c | None => 65533 end.

(** libs/utils/utf8.c:337-490 [char_to_cp866]. *)
Definition char_to_cp866 (c : Z) : Z :=
  if c <? 0x80 then c
  else if (1040 <=? c) && (c <=? 1087) then c - 1040 + 0x80
  else if (1088 <=? c) && (c <=? 1103) then c - 1088 + 0xE0
  else match lookup c to_cp866_table with Some b => b | None => 0x1A end.

(** libs/utils/utf8.c:492-632 [char_to_cp1251]. *)
Definition char_to_cp1251 (c : Z) : Z :=
  if c <? 0x80 then c
  else if (1040 <=? c) && (c <=? 1103) then c - 1040 + 0xC0
  else match lookup c to_cp1251_table with Some b => b | None => 0x1A end.

(** libs/utils/utf8.c:318-334 [utf8_from_codepage]. *)
Definition utf8_from_codepage (f : Z -> Z) (src : bytes) : bytes :=
  flat_map (fun b => utf8_to_string (f b)) src.

(** libs/utils/utf8.c:634-649 [utf8_to_codepage]; [fuel] bounds the number of
    symbols (the length of the source is enough since every step advances). *)
Fixpoint to_codepage_loop (fuel : nat) (f : Z -> Z) (src : bytes) : option bytes :=
  match src with
  | [] => Some []
  | b :: _ =>
      match fuel with
      | O => None
      | S fuel =>
          do c <- utf8_convert src;
          do rest <- to_codepage_loop fuel f (skipn (Z.to_nat (utf8_symbol_size b)) src);
          Some (f c :: rest)
      end
  end.
Definition utf8_to_codepage (f : Z -> Z) (src : bytes) : option bytes :=
  to_codepage_loop (List.length src) f src.

(** libs/utils/utf8.c:1024-1042 [utf8_from_cp866], [utf8_from_cp1251],
    [utf8_to_cp866], [utf8_to_cp1251]. *)
Definition utf8_from_cp866 := utf8_from_codepage char32_from_cp866.
Definition utf8_from_cp1251 := utf8_from_codepage char32_from_cp1251.
Definition utf8_to_cp866 := utf8_to_codepage char_to_cp866.
Definition utf8_to_cp1251 := utf8_to_codepage char_to_cp1251.

(** libs/utils/utf8.c:654-867, the [switch] of [char_transliteration]. *)
Definition translit_table : list (Z * bytes) :=
  [
   (1040, str "A"); (1072, str "a"); (1041, str "B"); (1073, str "b"); (1042, str "V"); (1074, str "v");
   (1043, str "G"); (1075, str "g"); (1044, str "D"); (1076, str "d"); (1047, str "Z"); (1079, str "z");
   (1048, str "I"); (1049, str "I"); (1080, str "i"); (1081, str "i"); (1050, str "K"); (1082, str "k");
   (1051, str "L"); (1083, str "l"); (1052, str "M"); (1084, str "m"); (1053, str "N"); (1085, str "n");
   (1054, str "O"); (1086, str "o"); (1055, str "P"); (1087, str "p"); (1056, str "R"); (1088, str "r");
   (1057, str "S"); (1089, str "s"); (1058, str "T"); (1090, str "t"); (1059, str "U"); (1091, str "u");
   (1060, str "F"); (1092, str "f"); (1067, str "Y"); (1099, str "y"); (1045, str "E"); (1025, str "E");
   (1069, str "E"); (1077, str "e"); (1105, str "e"); (1101, str "e"); (1046, str "Zh"); (1078, str "zh");
   (1061, str "Kh"); (1093, str "kh"); (1062, str "Ts"); (1094, str "ts"); (1063, str "Ch"); (1095, str "ch");
   (1064, str "Sh"); (1096, str "sh"); (1066, str "Ie"); (1098, str "ie"); (1070, str "Iu"); (1102, str "iu");
   (1071, str "Ia"); (1103, str "ia"); (1065, str "Shch"); (1097, str "shch"); (1068, str ""); (1100, str "")].

(** libs/utils/utf8.c:652-868 [char_transliteration]. *)
Definition char_transliteration (c : Z) : bytes :=
  match lookup c translit_table with Some s => s | None => utf8_to_string c end.

(** libs/utils/utf8.c:1045-1060 [utf8_transliteration]. *)
Fixpoint translit_loop (fuel : nat) (src : bytes) : option bytes :=
  match src with
  | [] => Some []
  | b :: _ =>
      match fuel with
      | O => None
      | S fuel =>
          do c <- utf8_convert src;
          do rest <- translit_loop fuel (skipn (Z.to_nat (utf8_symbol_size b)) src);
          Some (char_transliteration c ++ rest)%list
      end
  end.
Definition utf8_transliteration (src : bytes) : option bytes :=
  translit_loop (List.length src) src.

(** libs/utils/utf8.c:1062-1075 [utf8_to_upper] (97 = 'a', 122 = 'z', 65 = 'A',
    1072 = 'а', 1103 = 'я', 1040 = 'А'). *)
Definition utf8_to_upper (c : Z) : Z :=
  if (97 <=? c) && (c <=? 122) then c + (65 - 97)
  else if (1072 <=? c) && (c <=? 1103) then c + (1040 - 1072)
  else c.

(** libs/utils/utf8.c:1112-1115 [utf8_is_digit]. *)
Definition utf8_is_digit (c : Z) : bool := (48 <=? c) && (c <=? 57).

(** libs/utils/utf8.c:1077-1095 [utf8_to_number]. *)
Definition utf8_to_number (c : Z) : Z :=
  if utf8_is_digit c then c - 48
  else if (65 <=? c) && (c <=? 70) then c - 65 + 10
  else if (97 <=? c) && (c <=? 102) then c - 97 + 10
  else 0.

(** libs/utils/utf8.c:1097-1103 [utf8_is_russian]. *)
Definition utf8_is_russian (c : Z) : bool :=
  (c =? 1025) || (c =? 1105) || ((1040 <=? c) && (c <=? 1071))
  || ((1072 <=? c) && (c <=? 1087)) || ((1088 <=? c) && (c <=? 1103)).

(** libs/utils/utf8.c:1105-1110 [utf8_is_letter]. *)
Definition utf8_is_letter (c : Z) : bool :=
  utf8_is_russian c || (c =? 95)
  || ((65 <=? c) && (c <=? 90)) || ((97 <=? c) && (c <=? 122)).

(** libs/utils/utf8.c:1117-1122 [utf8_is_hexa_digit]. *)
Definition utf8_is_hexa_digit (c : Z) : bool :=
  utf8_is_digit c || ((65 <=? c) && (c <=? 70)) || ((97 <=? c) && (c <=? 102)).

(** libs/utils/utf8.c:1124-1127 [utf8_is_power] ('e', 'E', Cyrillic 'е', 'Е'). *)
Definition utf8_is_power (c : Z) : bool :=
  (c =? 101) || (c =? 69) || (c =? 1077) || (c =? 1045).
