(** The value representation macros of the runtime.

    Models: /repo/runtime/values.h:73-160 (64-bit, no VERIFFI, no Spacetime). *)
From Coq Require Import ZArith Lia Bool.
From Verif Require Import RT_Word.
Open Scope Z_scope.

(** values.h:80 [Is_long], on the unsigned view of the word. *)
Definition Is_long (v : Z) : bool := negb (Z.land v 1 =? 0).

(** values.h:85 [Is_block]. *)
Definition Is_block (v : Z) : bool := Z.land v 1 =? 0.

(** values.h:90 [Val_long(x) = (intnat)((uintnat)x << 1) + 1].  The signed addition
    cannot overflow because the shifted word is even; the result is the word. *)
Definition Val_long (x : Z) : Z := u64 (u64 (u64 x * 2) + 1).

(** values.h:91 [Long_val(x) = x >> 1] on the signed [value] type. Result in the
    signed view. *)
Definition Long_val (v : Z) : Z := s64 v / 2.

(** values.h:96 [Unsigned_long_val(x) = (uintnat)x >> 1]. *)
Definition Unsigned_long_val (v : Z) : Z := u64 v / 2.

(** values.h:92-93. *)
Definition Max_long : Z := 2 ^ (8 * 8 - 2) - 1.
Definition Min_long : Z := - 2 ^ (8 * 8 - 2).

(** values.h:127 [Tag_hd(hd) = hd & 0xFF]. *)
Definition Tag_hd (hd : Z) : Z := Z.land hd 255.

(** values.h:132 [Wosize_hd(hd) = hd >> 10] ([hd] unsigned). *)
Definition Wosize_hd (hd : Z) : Z := Z.shiftr hd 10.

(** Building a header: [(wosize << 10) | tag], as done with literals such as 1024,
    1025 and 2048 in /repo/runtime/prim_int63.c:202,231,267, with [|] in
    /repo/runtime/prim_string.c and as [(arity << 10) + ordinal] in
    /repo/theories/Codegen/LambdaANF_to_Clight_stack.v [makeTagZ]. *)
Definition Make_header (wosize tag : Z) : Z := u64 (Z.lor (wosize * 2 ^ 10) tag).

(** values.h:159 [Max_wosize = (1 << 54) - 1]. *)
Definition Max_wosize : Z := 2 ^ 54 - 1.

(** gc_stack.h:94-95 [No_scan_tag], [No_scan]; a block is scanned iff its tag is below it
    (gc_stack.c [do_scan]: [if (!No_scan(Tag_hd(hd)))]). *)
Definition No_scan_tag : Z := 251.
Definition No_scan (tag : Z) : bool := No_scan_tag <=? tag.
