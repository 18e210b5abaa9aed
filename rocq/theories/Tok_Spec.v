(* What the text of a Myrddin program says, from doc/lang.txt and doc/mc.1 (section 2, lexical
   conventions), stated without reference to the functions of the lexer. *)
From Verif Require Import Base Utf_Spec.
From Verif Require Export Tok_Model.
Local Open Scope N_scope.
Local Open Scope list_scope.

(* ---- line numbers ---- *)
Fixpoint newlines (s : text) : N := match s with [] => 0 | c :: s => (if c =? 10 then 1 else 0) + newlines s end.

(* ---- comments ---- *)
(* A comment is read from the left as a sequence of marks: slash star, star slash, and other
   bytes; the byte 0xff is not a character. *)
Inductive mark := Copen | Cclose | Cbyte (c : N).
Definition pair (c : N) (s : text) : Prop :=
  exists d s', s = d :: s' /\ ((c = 47 /\ d = 42) \/ (c = 42 /\ d = 47)).
Inductive reads : text -> list mark -> Prop :=
| rd_nil : reads [] []
| rd_open s ms : reads s ms -> reads (47 :: 42 :: s) (Copen :: ms)
| rd_close s ms : reads s ms -> reads (42 :: 47 :: s) (Cclose :: ms)
| rd_byte c s ms : ~ pair c s -> c <> 255 -> reads s ms -> reads (c :: s) (Cbyte c :: ms).
(* what may stand between slash star and its star slash: comments nest *)
Inductive balanced : list mark -> Prop :=
| ba_nil : balanced []
| ba_byte c ms : balanced ms -> balanced (Cbyte c :: ms)
| ba_nest a b : balanced a -> balanced b -> balanced (Copen :: a ++ Cclose :: b).
Definition comment (s : text) : Prop := exists ms, balanced ms /\ reads s (Copen :: ms ++ [Cclose]).

(* ---- what separates tokens ---- *)
(* blank k b k' r: b, followed by r, is blank.  k: a backslash was seen, so that the next newline
   does not count; k': the same at the end of b. *)
Definition space (c : N) : Prop := c = 32 \/ (9 <= c <= 13 /\ c <> 10).
Definition line_end (s : text) : Prop := match s with [] => True | c :: _ => c = 10 end.
Inductive blank : bool -> text -> bool -> text -> Prop :=
| bl_nil k r : blank k [] k r
| bl_space k k' c b r : space c -> blank k b k' r -> blank k (c :: b) k' r
| bl_cont k k' b r : blank true b k' r -> blank k (92 :: b) k' r
| bl_nl k' b r : blank false b k' r -> blank true (10 :: b) k' r
| bl_comment k k' c b r : comment c -> blank k b k' r -> blank k (c ++ b) k' r
| bl_line k k' t b r : ~ In 10 t -> ~ In 255 t -> line_end (b ++ r) -> blank k b k' r -> blank k (47 :: 47 :: t ++ b) k' r.

(* ---- operators and punctuation ---- *)
Definition operators : list (text * tt) :=
  map (fun p => (bytes (fst p), snd p))
  [("{"%string, Tobrace); ("}"%string, Tcbrace); ("("%string, Toparen); (")"%string, Tcparen); ("["%string, Tosqbrac);
   ("]"%string, Tcsqbrac); (","%string, Tcomma); ("`"%string, Ttick); ("#"%string, Tderef); ("?"%string, Tqmark);
   ("::"%string, Twith); (":"%string, Tcolon); ("~"%string, Tbnot); (";;"%string, Tendblk); (";"%string, Tendln);
   ("..."%string, Tellipsis); ("."%string, Tdot); ("+="%string, Taddeq); ("++"%string, Tinc); ("+"%string, Tplus);
   ("-="%string, Tsubeq); ("--"%string, Tdec); ("->"%string, Tret); ("-"%string, Tminus); ("*="%string, Tmuleq);
   ("*"%string, Tmul); ("/="%string, Tdiveq); ("/"%string, Tdiv); ("%="%string, Tmodeq); ("%"%string, Tmod);
   ("=="%string, Teq); ("="%string, Tasn); ("|="%string, Tboreq); ("||"%string, Tlor); ("|"%string, Tbor);
   ("&="%string, Tbandeq); ("&&"%string, Tland); ("&"%string, Tband); ("^="%string, Tbxoreq); ("^"%string, Tbxor);
   ("<="%string, Tle); ("<<="%string, Tbsleq); ("<<"%string, Tbsl); ("<"%string, Tlt); (">="%string, Tge);
   (">>="%string, Tbsreq); (">>"%string, Tbsr); (">"%string, Tgt); ("!="%string, Tne); ("!"%string, Tlnot)].
(* the operator at the start of s is the longest one in the table *)
Definition longest_operator (s sp : text) (t : tt) : Prop :=
  In (sp, t) operators /\ (exists r, s = sp ++ r) /\
  (forall sp' t' r', In (sp', t') operators -> s = sp' ++ r' -> (length sp' <= length sp)%nat).

(* ---- words ---- *)
Definition letter (c : N) : Prop := 65 <= c <= 90 \/ 97 <= c <= 122.
Definition digit (c : N) : Prop := 48 <= c <= 57.
Definition word_start (c : N) : Prop := letter c \/ c = 95 \/ c = 36.
Definition word_char (c : N) : Prop := word_start c \/ digit c.
Definition starts (P : N -> Prop) (s : text) : Prop := match s with [] => False | c :: _ => P c end.
Definition keywords : list (text * tt) :=
  map (fun p => (bytes (fst p), snd p))
  [("pkg"%string, Tpkg); ("use"%string, Tuse); ("type"%string, Ttype); ("trait"%string, Ttrait); ("impl"%string, Timpl);
   ("struct"%string, Tstruct); ("union"%string, Tunion); ("const"%string, Tconst); ("var"%string, Tvar);
   ("generic"%string, Tgeneric); ("extern"%string, Tattr); ("pkglocal"%string, Tattr); ("$noret"%string, Tattr);
   ("if"%string, Tif); ("elif"%string, Telif); ("else"%string, Telse); ("for"%string, Tfor); ("while"%string, Twhile);
   ("match"%string, Tmatch); ("break"%string, Tbreak); ("continue"%string, Tcontinue); ("goto"%string, Tgoto);
   ("true"%string, Tboollit); ("false"%string, Tboollit); ("void"%string, Tvoidlit); ("sizeof"%string, Tsizeof);
   ("auto"%string, Tauto); ("_"%string, Tgap)].
Definition word_type (w : text) (t : tt) : Prop :=
  In (w, t) keywords \/ (t = Tident /\ forall t', ~ In (w, t') keywords).

(* ---- integer literals ---- *)
Definition digit_value (c d : N) : Prop := (c = 48 + d /\ d < 10) \/ (10 <= d < 16 /\ (c = 87 + d \/ c = 55 + d)).
Inductive spelt (base : N) : text -> list N -> Prop :=
| sp_nil : spelt base [] []
| sp_under t ds : spelt base t ds -> spelt base (95 :: t) ds
| sp_digit c d t ds : digit_value c d -> d < base -> spelt base t ds -> spelt base (c :: t) (d :: ds).
Fixpoint value (base v : N) (ds : list N) : N := match ds with [] => v | d :: ds => value base (base * v + d) ds end.
Inductive prefix : N -> text -> Prop :=
| px_10 : prefix 10 []
| px_16 : prefix 16 (bytes "0x")
| px_8 : prefix 8 (bytes "0o")
| px_2 : prefix 2 (bytes "0b").
Definition sizes : list (N * ity) :=
  [(108, Ity64); (76, Ity64); (105, Ity32); (73, Ity32); (115, Ity16); (83, Ity16); (98, Ity8); (66, Ity8)].
Inductive int_suffix : text -> option (bool * ity) -> Prop :=
| sx_none : int_suffix [] None
| sx_signed c t : In (c, t) sizes -> int_suffix [c] (Some (false, t))
| sx_unsigned u c t : u = 117 \/ u = 85 -> In (c, t) sizes -> int_suffix [u; c] (Some (true, t)).
(* p t sx spells an integer literal of the given digits and type *)
Definition literal (p t sx : text) (base : N) (ds : list N) (ty : option (bool * ity)) : Prop :=
  prefix base p /\ spelt base t ds /\ ds <> [] /\ int_suffix sx ty /\ (base = 10 -> starts digit t).

(* ---- strings and characters ---- *)
Definition simple_escapes : list (N * N) :=
  [(110, 10); (114, 13); (116, 9); (98, 8); (34, 34); (39, 39); (118, 11); (92, 92); (48, 0)].
Inductive hexdigits : text -> list N -> Prop :=
| hx_nil : hexdigits [] []
| hx_cons c d t ds : digit_value c d -> hexdigits t ds -> hexdigits (c :: t) (d :: ds).
(* escape t v b: after the backslash, t denotes the character v, in a string the bytes b *)
Inductive escape : text -> N -> text -> Prop :=
| es_simple c v : In (c, v) simple_escapes -> escape [c] v [v]
| es_hex c d x y : digit_value c x -> digit_value d y -> escape [120; c; d] (16 * x + y) [16 * x + y]
| es_uni t ds v : hexdigits t ds -> v = value 16 0 ds -> v <= 0x10FFFF -> escape (117 :: 123 :: t ++ [125]) v (utf8 v).
Inductive spells : text -> text -> Prop :=
| st_nil : spells [] []
| st_raw c t b : c <> 34 -> c <> 92 -> c <> 10 -> c <> 255 -> spells t b -> spells (c :: t) (c :: b)
| st_escape e v x t b : escape e v x -> spells t b -> spells (92 :: e ++ t) (x ++ b).
(* the payload of UTF-8 sequences, over-long ones included *)
Inductive utf_like : text -> N -> Prop :=
| ul_1 c : c < 128 -> utf_like [c] c
| ul_2 a b : a < 32 -> b < 64 -> utf_like [192 + a; 128 + b] (64 * a + b)
| ul_3 a b c : a < 16 -> b < 64 -> c < 64 -> utf_like [224 + a; 128 + b; 128 + c] (64 * (64 * a + b) + c)
| ul_4 a b c d : a < 8 -> b < 64 -> c < 64 -> d < 64 -> utf_like [240 + a; 128 + b; 128 + c; 128 + d] (64 * (64 * (64 * a + b) + c) + d).
Inductive charform : text -> N -> Prop :=
| ch_raw t v : utf_like t v -> t <> [10] -> t <> [92] -> charform t v
| ch_escape e v b : escape e v b -> charform (92 :: e) v.

(* ---- the whole file ---- *)
(* denotes k t: the text t is written for the token k *)
Inductive denotes : tok -> text -> Prop :=
| dn_newline : denotes (Op Tendln) [10]
| dn_op sp t : In (sp, t) operators -> denotes (Op t) sp
| dn_word w t : starts word_start w -> Forall word_char w -> word_type w t -> denotes (Word t w) w
| dn_str t b : spells t b -> denotes (Str b) (34 :: t ++ [34])
| dn_chr t v : charform t v -> denotes (Chr v) (39 :: t ++ [39])
| dn_int p t sx base ds ty : literal p t sx base ds ty -> denotes (Int (N.min (value base 0 ds) (2 ^ 64 - 1)) ty) (p ++ t ++ sx)
| dn_flt t : starts digit t -> (In 46 t \/ In 101 t \/ In 69 t) ->
    Forall (fun c => digit c \/ In c [46; 95; 101; 69; 43; 45]) t -> denotes (Flt (filter (fun c => negb (c =? 95)) t)) t
| dn_typaram w : w <> [] -> Forall word_char w -> denotes (Typaram w) (64 :: w).
(* the line the lexer gives a token that starts on the given line: a newline is numbered as the
   line it starts *)
Definition is_newline (t : text) : bool := match t with [c] => c =? 10 | _ => false end.
Definition token_line (line : N) (t : text) : N := if is_newline t then line + 1 else line.
(* the text is blanks and tokens, with these line numbers, to its end *)
Inductive tokens : N -> text -> list (tok * N) -> Prop :=
| tk_end line b k : blank false b k [] -> tokens line b [(Eof, line + newlines b)]
| tk_tok line b k t x r ts : blank false b k (t ++ r) -> denotes x t ->
    tokens (line + newlines b + newlines t) r ts ->
    tokens line (b ++ t ++ r) ((x, token_line (line + newlines b) t) :: ts).
