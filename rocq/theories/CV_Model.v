(** Conversions between the data of the extracted compiler (bytes, strings, unary and binary
    numbers) and the data of OCaml (characters, strings, machine integers).
    Source: /repo/plugin/static/caml_byte.ml, caml_bytestring.ml, caml_nat.ml (the same files are
    in /repo/cplugin/static), /repo/cplugin/static/caml_ascii_string.ml and
    /repo/cplugin/static/camlrocq.ml.

    Simplified: an OCaml character is its code, an OCaml string the list of its characters.  An
    OCaml exception (an index out of bounds, a failed [assert], a size no string may have) is
    [None].  A loop that is not structural gets fuel, and running out of fuel is [None] too: the
    theorems show that neither happens.  [Bytes.create] returns bytes that are not initialised, so
    it takes them from an argument, about which nothing is assumed but the length. *)
From Coq Require Import List ZArith Ascii Bool.
From Coq Require Import Strings.Byte.
Import ListNotations.
Local Open Scope Z_scope.

(** * Machine integers *)

(** OCaml's [int] (w = 63), [int32] (w = 32), [int64] (w = 64): arithmetic is modulo [2 ^ w], and the
    result is read as signed.  Used by every definition below. *)
Definition wrap (w z : Z) : Z := (z + 2 ^ (w - 1)) mod 2 ^ w - 2 ^ (w - 1).

(** [n land 1] (cplugin/static/camlrocq.ml:73, 84, 99) *)
Definition land1 (n : Z) : Z := n mod 2.

(** [n lsr 1], [shift_right_logical n 1] (cplugin/static/camlrocq.ml:74, 76, 87, 91, 102, 106): the
    word is read as unsigned, and a zero enters at the top *)
Definition lsr1 (w n : Z) : Z := wrap w ((n mod 2 ^ w) / 2).

(** * Bytes: caml_byte.ml *)

(** caml_byte.ml:2-258 [char_of_byte], case by case as in the file *)
Definition char_of_byte (b : byte) : Z :=
  match b with
  | x00 => 0 | x01 => 1 | x02 => 2 | x03 => 3 | x04 => 4 | x05 => 5
  | x06 => 6 | x07 => 7 | x08 => 8 | x09 => 9 | x0a => 10 | x0b => 11
  | x0c => 12 | x0d => 13 | x0e => 14 | x0f => 15 | x10 => 16 | x11 => 17
  | x12 => 18 | x13 => 19 | x14 => 20 | x15 => 21 | x16 => 22 | x17 => 23
  | x18 => 24 | x19 => 25 | x1a => 26 | x1b => 27 | x1c => 28 | x1d => 29
  | x1e => 30 | x1f => 31 | x20 => 32 | x21 => 33 | x22 => 34 | x23 => 35
  | x24 => 36 | x25 => 37 | x26 => 38 | x27 => 39 | x28 => 40 | x29 => 41
  | x2a => 42 | x2b => 43 | x2c => 44 | x2d => 45 | x2e => 46 | x2f => 47
  | x30 => 48 | x31 => 49 | x32 => 50 | x33 => 51 | x34 => 52 | x35 => 53
  | x36 => 54 | x37 => 55 | x38 => 56 | x39 => 57 | x3a => 58 | x3b => 59
  | x3c => 60 | x3d => 61 | x3e => 62 | x3f => 63 | x40 => 64 | x41 => 65
  | x42 => 66 | x43 => 67 | x44 => 68 | x45 => 69 | x46 => 70 | x47 => 71
  | x48 => 72 | x49 => 73 | x4a => 74 | x4b => 75 | x4c => 76 | x4d => 77
  | x4e => 78 | x4f => 79 | x50 => 80 | x51 => 81 | x52 => 82 | x53 => 83
  | x54 => 84 | x55 => 85 | x56 => 86 | x57 => 87 | x58 => 88 | x59 => 89
  | x5a => 90 | x5b => 91 | x5c => 92 | x5d => 93 | x5e => 94 | x5f => 95
  | x60 => 96 | x61 => 97 | x62 => 98 | x63 => 99 | x64 => 100 | x65 => 101
  | x66 => 102 | x67 => 103 | x68 => 104 | x69 => 105 | x6a => 106 | x6b => 107
  | x6c => 108 | x6d => 109 | x6e => 110 | x6f => 111 | x70 => 112 | x71 => 113
  | x72 => 114 | x73 => 115 | x74 => 116 | x75 => 117 | x76 => 118 | x77 => 119
  | x78 => 120 | x79 => 121 | x7a => 122 | x7b => 123 | x7c => 124 | x7d => 125
  | x7e => 126 | x7f => 127 | x80 => 128 | x81 => 129 | x82 => 130 | x83 => 131
  | x84 => 132 | x85 => 133 | x86 => 134 | x87 => 135 | x88 => 136 | x89 => 137
  | x8a => 138 | x8b => 139 | x8c => 140 | x8d => 141 | x8e => 142 | x8f => 143
  | x90 => 144 | x91 => 145 | x92 => 146 | x93 => 147 | x94 => 148 | x95 => 149
  | x96 => 150 | x97 => 151 | x98 => 152 | x99 => 153 | x9a => 154 | x9b => 155
  | x9c => 156 | x9d => 157 | x9e => 158 | x9f => 159 | xa0 => 160 | xa1 => 161
  | xa2 => 162 | xa3 => 163 | xa4 => 164 | xa5 => 165 | xa6 => 166 | xa7 => 167
  | xa8 => 168 | xa9 => 169 | xaa => 170 | xab => 171 | xac => 172 | xad => 173
  | xae => 174 | xaf => 175 | xb0 => 176 | xb1 => 177 | xb2 => 178 | xb3 => 179
  | xb4 => 180 | xb5 => 181 | xb6 => 182 | xb7 => 183 | xb8 => 184 | xb9 => 185
  | xba => 186 | xbb => 187 | xbc => 188 | xbd => 189 | xbe => 190 | xbf => 191
  | xc0 => 192 | xc1 => 193 | xc2 => 194 | xc3 => 195 | xc4 => 196 | xc5 => 197
  | xc6 => 198 | xc7 => 199 | xc8 => 200 | xc9 => 201 | xca => 202 | xcb => 203
  | xcc => 204 | xcd => 205 | xce => 206 | xcf => 207 | xd0 => 208 | xd1 => 209
  | xd2 => 210 | xd3 => 211 | xd4 => 212 | xd5 => 213 | xd6 => 214 | xd7 => 215
  | xd8 => 216 | xd9 => 217 | xda => 218 | xdb => 219 | xdc => 220 | xdd => 221
  | xde => 222 | xdf => 223 | xe0 => 224 | xe1 => 225 | xe2 => 226 | xe3 => 227
  | xe4 => 228 | xe5 => 229 | xe6 => 230 | xe7 => 231 | xe8 => 232 | xe9 => 233
  | xea => 234 | xeb => 235 | xec => 236 | xed => 237 | xee => 238 | xef => 239
  | xf0 => 240 | xf1 => 241 | xf2 => 242 | xf3 => 243 | xf4 => 244 | xf5 => 245
  | xf6 => 246 | xf7 => 247 | xf8 => 248 | xf9 => 249 | xfa => 250 | xfb => 251
  | xfc => 252 | xfd => 253 | xfe => 254 | xff => 255
  end.

(** caml_byte.ml:259-515, the cases of [byte_of_char] in the order of the file *)
Definition byte_cases : list (Z * byte) :=
  [
   (0, x00); (1, x01); (2, x02); (3, x03); (4, x04); (5, x05);
   (6, x06); (7, x07); (8, x08); (9, x09); (10, x0a); (11, x0b);
   (12, x0c); (13, x0d); (14, x0e); (15, x0f); (16, x10); (17, x11);
   (18, x12); (19, x13); (20, x14); (21, x15); (22, x16); (23, x17);
   (24, x18); (25, x19); (26, x1a); (27, x1b); (28, x1c); (29, x1d);
   (30, x1e); (31, x1f); (32, x20); (33, x21); (34, x22); (35, x23);
   (36, x24); (37, x25); (38, x26); (39, x27); (40, x28); (41, x29);
   (42, x2a); (43, x2b); (44, x2c); (45, x2d); (46, x2e); (47, x2f);
   (48, x30); (49, x31); (50, x32); (51, x33); (52, x34); (53, x35);
   (54, x36); (55, x37); (56, x38); (57, x39); (58, x3a); (59, x3b);
   (60, x3c); (61, x3d); (62, x3e); (63, x3f); (64, x40); (65, x41);
   (66, x42); (67, x43); (68, x44); (69, x45); (70, x46); (71, x47);
   (72, x48); (73, x49); (74, x4a); (75, x4b); (76, x4c); (77, x4d);
   (78, x4e); (79, x4f); (80, x50); (81, x51); (82, x52); (83, x53);
   (84, x54); (85, x55); (86, x56); (87, x57); (88, x58); (89, x59);
   (90, x5a); (91, x5b); (92, x5c); (93, x5d); (94, x5e); (95, x5f);
   (96, x60); (97, x61); (98, x62); (99, x63); (100, x64); (101, x65);
   (102, x66); (103, x67); (104, x68); (105, x69); (106, x6a); (107, x6b);
   (108, x6c); (109, x6d); (110, x6e); (111, x6f); (112, x70); (113, x71);
   (114, x72); (115, x73); (116, x74); (117, x75); (118, x76); (119, x77);
   (120, x78); (121, x79); (122, x7a); (123, x7b); (124, x7c); (125, x7d);
   (126, x7e); (127, x7f); (128, x80); (129, x81); (130, x82); (131, x83);
   (132, x84); (133, x85); (134, x86); (135, x87); (136, x88); (137, x89);
   (138, x8a); (139, x8b); (140, x8c); (141, x8d); (142, x8e); (143, x8f);
   (144, x90); (145, x91); (146, x92); (147, x93); (148, x94); (149, x95);
   (150, x96); (151, x97); (152, x98); (153, x99); (154, x9a); (155, x9b);
   (156, x9c); (157, x9d); (158, x9e); (159, x9f); (160, xa0); (161, xa1);
   (162, xa2); (163, xa3); (164, xa4); (165, xa5); (166, xa6); (167, xa7);
   (168, xa8); (169, xa9); (170, xaa); (171, xab); (172, xac); (173, xad);
   (174, xae); (175, xaf); (176, xb0); (177, xb1); (178, xb2); (179, xb3);
   (180, xb4); (181, xb5); (182, xb6); (183, xb7); (184, xb8); (185, xb9);
   (186, xba); (187, xbb); (188, xbc); (189, xbd); (190, xbe); (191, xbf);
   (192, xc0); (193, xc1); (194, xc2); (195, xc3); (196, xc4); (197, xc5);
   (198, xc6); (199, xc7); (200, xc8); (201, xc9); (202, xca); (203, xcb);
   (204, xcc); (205, xcd); (206, xce); (207, xcf); (208, xd0); (209, xd1);
   (210, xd2); (211, xd3); (212, xd4); (213, xd5); (214, xd6); (215, xd7);
   (216, xd8); (217, xd9); (218, xda); (219, xdb); (220, xdc); (221, xdd);
   (222, xde); (223, xdf); (224, xe0); (225, xe1); (226, xe2); (227, xe3);
   (228, xe4); (229, xe5); (230, xe6); (231, xe7); (232, xe8); (233, xe9);
   (234, xea); (235, xeb); (236, xec); (237, xed); (238, xee); (239, xef);
   (240, xf0); (241, xf1); (242, xf2); (243, xf3); (244, xf4); (245, xf5);
   (246, xf6); (247, xf7); (248, xf8); (249, xf9); (250, xfa); (251, xfb);
   (252, xfc); (253, xfd); (254, xfe); (255, xff)
  ].

(** Matching takes the first case that fits; no case at all is an exception.
    caml_byte.ml:259-515 [byte_of_char] *)
Fixpoint first_case (l : list (Z * byte)) (c : Z) : option byte :=
  match l with
  | [] => None
  | (d, b) :: l => if c =? d then Some b else first_case l c
  end.
(** caml_byte.ml:259-515 [byte_of_char] *)
Definition byte_of_char (c : Z) : option byte := first_case byte_cases c.

(** caml_ascii_string.ml:10-12 *)
Definition char_of_ascii (a : ascii) : Z := char_of_byte (byte_of_ascii a).
(** caml_ascii_string.ml:14-16 *)
Definition ascii_of_char (c : Z) : option ascii := option_map ascii_of_byte (byte_of_char c).

(** * Strings: caml_bytestring.ml and caml_ascii_string.ml, which are the same program for two types
    of characters *)

(** The longest string of OCaml on a machine of 64 bits ([Sys.max_string_length]); [Bytes.create]
    refuses more, and a negative size (caml_bytestring.ml:13, caml_ascii_string.ml:20) *)
Definition max_string : Z := 2 ^ 57 - 9.

Section Strings.
Context {A : Type}.
(** [Caml_byte.char_of_byte] or [char_of_ascii] *)
Variable char_of : A -> Z.
(** [byte_of_char] or [ascii_of_char] *)
Variable of_char : Z -> option A.

(** caml_bytestring.ml:4-7 [caml_bytestring_length_aux]; caml_ascii_string.ml:3-6 *)
Fixpoint length_aux (s : list A) (acc : Z) : Z :=
  match s with
  | [] => acc
  | _ :: s => length_aux s (wrap 63 (acc + 1))
  end.
(** caml_bytestring.ml:9; caml_ascii_string.ml:8 *)
Definition caml_length (s : list A) : Z := length_aux s 0.

(** [Bytes.create] (caml_bytestring.ml:13; caml_ascii_string.ml:20): the bytes that happen to be
    there are [junk 0], [junk 1], ... *)
Definition bytes_create (junk : nat -> Z) (len : Z) : option (list Z) :=
  if (0 <=? len) && (len <=? max_string) then Some (map junk (seq 0 (Z.to_nat len))) else None.

(** Write at a place of a list; [None] if there is no such place *)
Fixpoint set_at (l : list Z) (i : nat) (c : Z) : option (list Z) :=
  match l, i with
  | [], _ => None
  | _ :: l, O => Some (c :: l)
  | d :: l, S i => option_map (cons d) (set_at l i c)
  end.
(** [Bytes.set] (caml_bytestring.ml:17; caml_ascii_string.ml:24) *)
Definition bytes_set (buf : list Z) (i c : Z) : option (list Z) :=
  if i <? 0 then None else set_at buf (Z.to_nat i) c.

(** caml_bytestring.ml:14-18, the loop [aux]; caml_ascii_string.ml:21-25 *)
Fixpoint fill (buf : list Z) (i : Z) (s : list A) : option (list Z) :=
  match s with
  | [] => Some buf
  | c :: cs =>
      match bytes_set buf i (char_of c) with
      | Some buf => fill buf (wrap 63 (i + 1)) cs
      | None => None
      end
  end.

(** caml_bytestring.ml:11-20 [caml_string_of_bytestring]; caml_ascii_string.ml:18-27 *)
Definition caml_string_of (junk : nat -> Z) (l : list A) : option (list Z) :=
  match bytes_create junk (caml_length l) with
  | Some buf => fill buf 0 l
  | None => None
  end.

(** [s.[i]] (caml_bytestring.ml:25; caml_ascii_string.ml:32) *)
Definition string_get (s : list Z) (i : Z) : option Z :=
  if i <? 0 then None else nth_error s (Z.to_nat i).

(** caml_bytestring.ml:23-25, the loop [aux]; caml_ascii_string.ml:30-32 *)
Fixpoint gather (fuel : nat) (s : list Z) (acc : list A) (i : Z) : option (list A) :=
  match fuel with
  | O => None
  | S fuel =>
      if i <? 0 then Some acc
      else match string_get s i with
           | Some c =>
               match of_char c with
               | Some b => gather fuel s (b :: acc) (wrap 63 (i - 1))
               | None => None
               end
           | None => None
           end
  end.

(** caml_bytestring.ml:22-26 [bytestring_of_caml_string]; caml_ascii_string.ml:29-33 *)
Definition of_caml_string (s : list Z) : option (list A) :=
  gather (S (length s)) s [] (wrap 63 (Z.of_nat (length s) - 1)).
End Strings.

(** caml_bytestring.ml:11-20 *)
Definition caml_string_of_bytestring := @caml_string_of byte char_of_byte.
(** caml_bytestring.ml:22-26 *)
Definition bytestring_of_caml_string := @of_caml_string byte byte_of_char.
(** caml_ascii_string.ml:18-27 *)
Definition caml_string_of_ascii_string := @caml_string_of ascii char_of_ascii.
(** caml_ascii_string.ml:29-33 *)
Definition ascii_string_of_caml_string := @of_caml_string ascii ascii_of_char.

(** * Unary numbers: caml_nat.ml *)

(** caml_nat.ml:2-4 [aux] *)
Fixpoint nat_aux (fuel : nat) (acc : nat) (i : Z) : option nat :=
  match fuel with
  | O => None
  | S fuel => if i <? 0 then Some acc else nat_aux fuel (S acc) (wrap 63 (i - 1))
  end.
(** caml_nat.ml:1-5 [nat_of_caml_int]; the fuel is what the loop needs from where it starts *)
Definition nat_of_caml_int (i : Z) : option nat :=
  let i1 := wrap 63 (i - 1) in nat_aux (S (Z.to_nat (i1 + 1))) O i1.

(** caml_nat.ml:7-10 [caml_int_of_nat_aux] *)
Fixpoint caml_int_of_nat_aux (n : nat) (acc : Z) : Z :=
  match n with
  | O => acc
  | S x => caml_int_of_nat_aux x (wrap 63 (acc + 1))
  end.
(** caml_nat.ml:11 *)
Definition caml_int_of_nat (n : nat) : Z := caml_int_of_nat_aux n 0.

(** * Binary numbers: cplugin/static/camlrocq.ml.  The file has each function three times, for
    [int], [int32] and [int64]; here the width is an argument *)

(** camlrocq.ml:67-70 [P.to_int], 78-81 [P.to_int32], 93-96 [P.to_int64] *)
Fixpoint P_to (w : Z) (p : positive) : Z :=
  match p with
  | xI p => let n := P_to w p in wrap w (wrap w (n + n) + 1)
  | xO p => let n := P_to w p in wrap w (n + n)
  | xH => 1
  end.

(** camlrocq.ml:72-76 [P.of_int], 83-91 [P.of_int32], 98-106 [P.of_int64]; [assert false] is [None] *)
Fixpoint P_of (fuel : nat) (w n : Z) : option positive :=
  match fuel with
  | O => None
  | S fuel =>
      if land1 n =? 0 then
        if n =? 0 then None else option_map xO (P_of fuel w (lsr1 w n))
      else
        if n =? 1 then Some xH else option_map xI (P_of fuel w (lsr1 w n))
  end.
(** camlrocq.ml:72-76, 83-91, 98-106: as many rounds as the word has bits *)
Definition P_of_word (w n : Z) : option positive := P_of (Z.to_nat w) w n.

(** camlrocq.ml:131-133, 138-140, 145-147 [N.to_int], [N.to_int32], [N.to_int64] *)
Definition N_to (w : Z) (n : N) : Z :=
  match n with N0 => 0 | Npos p => P_to w p end.
(** camlrocq.ml:135-136, 142-143, 149-150 [N.of_int], [N.of_int32], [N.of_int64] *)
Definition N_of (w n : Z) : option N :=
  if n =? 0 then Some N0 else option_map Npos (P_of_word w n).

(** camlrocq.ml:183-186 [Z.to_int], 196-199 [Z.to_int32], 209-212 [Z.to_int64] *)
Definition Z_to (w z : Z) : Z :=
  match z with
  | Z0 => 0
  | Zpos p => P_to w p
  | Zneg p => wrap w (- P_to w p)
  end.
(** camlrocq.ml:188-191 [Z.of_sint], 201-204 [Z.of_sint32], 214-217 [Z.of_sint64] *)
Definition Z_of_sint (w n : Z) : option Z :=
  if n =? 0 then Some Z0
  else if 0 <? n then option_map Zpos (P_of_word w n)
  else option_map Zneg (P_of_word w (wrap w (- n))).
(** camlrocq.ml:193-194 [Z.of_uint], 206-207 [Z.of_uint32], 219-220 [Z.of_uint64] *)
Definition Z_of_uint (w n : Z) : option Z :=
  if n =? 0 then Some Z0 else option_map Zpos (P_of_word w n).

(** camlrocq.ml:224-232, the digit for a value; [Char.chr] refuses what is not a code *)
Definition digit_char (d : Z) : option Z :=
  let c := if d <? 10 then wrap 63 (48 + d) else wrap 63 (wrap 63 (65 + d) - 10) in
  if (0 <=? c) && (c <=? 255) then Some c else None.

(** camlrocq.ml:224-232 [to_string_rec]; the buffer is a list, and grows at its end *)
Fixpoint to_string_rec (fuel : nat) (base : Z) (buff : list Z) (x : Z) : option (list Z) :=
  match fuel with
  | O => None
  | S fuel =>
      if x =? 0 then Some buff
      else let (q, r) := Z.div_eucl x base in
           match to_string_rec fuel base buff q with
           | Some buff =>
               match digit_char (Z_to 63 r) with
               | Some c => Some (buff ++ [c])
               | None => None
               end
           | None => None
           end
  end.

(** camlrocq.ml:234-245 [to_string_aux]; 45 is the minus sign, 48 the digit 0.  The fuel is one round
    for every binary digit and one more *)
Definition to_string_aux (base x : Z) : option (list Z) :=
  match x with
  | Z0 => Some [48]
  | Zpos p => to_string_rec (S (Pos.size_nat p)) base [] x
  | Zneg p => to_string_rec (S (Pos.size_nat p)) base [45] (Zpos p)
  end.
(** camlrocq.ml:247 [dec], which is [to_string] (camlrocq.ml:251) *)
Definition Z_dec (x : Z) : option (list Z) :=
  match Z_of_uint 63 10 with Some b => to_string_aux b x | None => None end.
(** camlrocq.ml:249 [hex] *)
Definition Z_hex (x : Z) : option (list Z) :=
  match Z_of_uint 63 16 with Some b => to_string_aux b x | None => None end.

(** camlrocq.ml:253-254 [is_power2] *)
Definition is_power2 (x : Z) : bool := (0 <? x) && (Z.land x (Z.pred x) =? 0).
