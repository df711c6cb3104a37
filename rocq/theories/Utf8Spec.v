(** Specification of UTF-8 (RFC 3629 bit layout) and of the two code pages. *)
From Verif Require Import Prelude.

(** Standard encoding of a code point below 2^21. *)
Definition enc (c : Z) : bytes :=
  if c <? 0x80 then [c]
  else if c <? 0x800 then [0xC0 + c / 64; 0x80 + c mod 64]
  else if c <? 0x10000 then [0xE0 + c / 4096; 0x80 + (c / 64) mod 64; 0x80 + c mod 64]
  else [0xF0 + c / 262144; 0x80 + (c / 4096) mod 64; 0x80 + (c / 64) mod 64; 0x80 + c mod 64].

Definition encs (cs : list Z) : bytes := flat_map enc cs.

(** Range of 4-byte UTF-8; Unicode code points are those up to 0x10FFFF. *)
Definition code_point (c : Z) : Prop := 0 <= c < 0x200000.

(** Unicode code points of bytes 0..255 in the standard CP866 and CP1251 code
    pages (from the Unicode consortium mapping files; 65533 marks the one byte
    CP1251 leaves undefined). *)
Definition cp866_standard : list Z :=
  [
   0; 1; 2; 3; 4; 5; 6; 7; 8; 9; 10; 11; 12; 13; 14; 15;
   16; 17; 18; 19; 20; 21; 22; 23; 24; 25; 26; 27; 28; 29; 30; 31;
   32; 33; 34; 35; 36; 37; 38; 39; 40; 41; 42; 43; 44; 45; 46; 47;
   48; 49; 50; 51; 52; 53; 54; 55; 56; 57; 58; 59; 60; 61; 62; 63;
   64; 65; 66; 67; 68; 69; 70; 71; 72; 73; 74; 75; 76; 77; 78; 79;
   80; 81; 82; 83; 84; 85; 86; 87; 88; 89; 90; 91; 92; 93; 94; 95;
   96; 97; 98; 99; 100; 101; 102; 103; 104; 105; 106; 107; 108; 109; 110; 111;
   112; 113; 114; 115; 116; 117; 118; 119; 120; 121; 122; 123; 124; 125; 126; 127;
   1040; 1041; 1042; 1043; 1044; 1045; 1046; 1047; 1048; 1049; 1050; 1051; 1052; 1053; 1054; 1055;
   1056; 1057; 1058; 1059; 1060; 1061; 1062; 1063; 1064; 1065; 1066; 1067; 1068; 1069; 1070; 1071;
   1072; 1073; 1074; 1075; 1076; 1077; 1078; 1079; 1080; 1081; 1082; 1083; 1084; 1085; 1086; 1087;
   9617; 9618; 9619; 9474; 9508; 9569; 9570; 9558; 9557; 9571; 9553; 9559; 9565; 9564; 9563; 9488;
   9492; 9524; 9516; 9500; 9472; 9532; 9566; 9567; 9562; 9556; 9577; 9574; 9568; 9552; 9580; 9575;
   9576; 9572; 9573; 9561; 9560; 9554; 9555; 9579; 9578; 9496; 9484; 9608; 9604; 9612; 9616; 9600;
   1088; 1089; 1090; 1091; 1092; 1093; 1094; 1095; 1096; 1097; 1098; 1099; 1100; 1101; 1102; 1103;
   1025; 1105; 1028; 1108; 1031; 1111; 1038; 1118; 176; 8729; 183; 8730; 8470; 164; 9632; 160].

Definition cp1251_standard : list Z :=
  [
   0; 1; 2; 3; 4; 5; 6; 7; 8; 9; 10; 11; 12; 13; 14; 15;
   16; 17; 18; 19; 20; 21; 22; 23; 24; 25; 26; 27; 28; 29; 30; 31;
   32; 33; 34; 35; 36; 37; 38; 39; 40; 41; 42; 43; 44; 45; 46; 47;
   48; 49; 50; 51; 52; 53; 54; 55; 56; 57; 58; 59; 60; 61; 62; 63;
   64; 65; 66; 67; 68; 69; 70; 71; 72; 73; 74; 75; 76; 77; 78; 79;
   80; 81; 82; 83; 84; 85; 86; 87; 88; 89; 90; 91; 92; 93; 94; 95;
   96; 97; 98; 99; 100; 101; 102; 103; 104; 105; 106; 107; 108; 109; 110; 111;
   112; 113; 114; 115; 116; 117; 118; 119; 120; 121; 122; 123; 124; 125; 126; 127;
   1026; 1027; 8218; 1107; 8222; 8230; 8224; 8225; 8364; 8240; 1033; 8249; 1034; 1036; 1035; 1039;
   1106; 8216; 8217; 8220; 8221; 8226; 8211; 8212; 65533; 8482; 1113; 8250; 1114; 1116; 1115; 1119;
   160; 1038; 1118; 1032; 164; 1168; 166; 167; 1025; 169; 1028; 171; 172; 173; 174; 1031;
   176; 177; 1030; 1110; 1169; 181; 182; 183; 1105; 8470; 1108; 187; 1112; 1029; 1109; 1111;
   1040; 1041; 1042; 1043; 1044; 1045; 1046; 1047; 1048; 1049; 1050; 1051; 1052; 1053; 1054; 1055;
   1056; 1057; 1058; 1059; 1060; 1061; 1062; 1063; 1064; 1065; 1066; 1067; 1068; 1069; 1070; 1071;
   1072; 1073; 1074; 1075; 1076; 1077; 1078; 1079; 1080; 1081; 1082; 1083; 1084; 1085; 1086; 1087;
   1088; 1089; 1090; 1091; 1092; 1093; 1094; 1095; 1096; 1097; 1098; 1099; 1100; 1101; 1102; 1103].


(** The byte [b] stands for the code point [c] in the code page. *)
Definition stands_for (page : list Z) (b c : Z) : Prop := znth page b = Some c.

(** Letters of the Russian alphabet, capital then small, in pairs. *)
Definition russian_letters : list (Z * Z) :=
  map (fun i => (1040 + Z.of_nat i, 1072 + Z.of_nat i)) (seq 0 32) ++ [(1025, 1105)].
Definition latin_letters : list (Z * Z) :=
  map (fun i => (65 + Z.of_nat i, 97 + Z.of_nat i)) (seq 0 26).

(** A character of an identifier: a Latin or Russian letter, a digit, '_'. *)
Definition ident_char (c : Z) : Prop :=
  (exists p, In p (russian_letters ++ latin_letters) /\ (c = fst p \/ c = snd p))
  \/ 48 <= c <= 57 \/ c = 95.

(** A byte allowed in an assembler or LLVM identifier. *)
Definition ascii_ident_byte (b : Z) : Prop :=
  65 <= b <= 90 \/ 97 <= b <= 122 \/ 48 <= b <= 57 \/ b = 95.
