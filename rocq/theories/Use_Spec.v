(* What a use file is meant to preserve, independently of how it is written: [survives a b] says that [b] is [a]
   with at most its visibility reduced to "hidden or not", and [rep] says which values the format can hold. *)
From Verif Require Import Base Word Use_Model.
Open Scope Z_scope.

Definition i32 (z : Z) : bool := (- 2 ^ 31 <=? z) && (z <? 2 ^ 31).
Definition i8 (z : Z) : bool := (- 2 ^ 7 <=? z) && (z <? 2 ^ 7).
Definition nat31 (z : Z) : bool := (0 <=? z) && (z <? 2 ^ 31).
Definition okcount {A} (l : list A) : bool := Z.of_nat (length l) <? 2 ^ 31.
Definition okstr (s : option (list Z)) : bool :=
  match s with None => true | Some b => okcount b && forallb (fun c => negb (c =? 0)) b end.
(* type ids are below 2^30 and are not 0 (the id of the builtin type "bad"); builtin kinds are small *)
Definition okref (r : ref) : bool :=
  match r with Rnull => true | Rbuiltin k => (0 <=? k) && (k <? 2 ^ 30) | Rtid t => (0 <? t) && (t <? 2 ^ 30) end.
Definition isbuiltin (r : ref) : bool := match r with Rbuiltin _ => true | _ => false end.

(* [rep_node lit_ok n]: every field of n fits its place in the file; integer literals satisfy [lit_ok] *)
Section rep.
Variable lit_ok : Z -> bool.
Fixpoint rep_node (n : node) : bool :=
  match n with
  | Nnull => true
  | Nexpr line op _ ty param c idx args =>
      i32 line && i8 op && okref ty && okref param && i8 c && rep_node idx && okcount args && forallb rep_node args
  | Nname line ns name => i32 line && okstr ns && okstr name
  | Nuse line l name => i32 line && i8 l && okstr name
  | Nlit line ty nelt v => i32 line && okref ty && nat31 nelt && rep_lit v
  | Nloop line a b c d => i32 line && rep_node a && rep_node b && rep_node c && rep_node d
  | Niter line a b c => i32 line && rep_node a && rep_node b && rep_node c
  | Nmatchs line v ms => i32 line && rep_node v && okcount ms && forallb rep_node ms
  | Nmatch line p b => i32 line && rep_node p && rep_node b
  | Nif line a b c => i32 line && rep_node a && rep_node b && rep_node c
  | Nblock line st ss => i32 line && rep_stab st && okcount ss && forallb rep_node ss
  | Ndecl line nm ty c g e r p init =>
      i32 line && rep_node nm && okref ty && i8 c && i8 g && i8 e && i8 r && i8 p && rep_node init
  | Nfunc line ty st args body =>
      i32 line && okref ty && rep_stab st && okcount args && forallb rep_node args && rep_node body
  | Nimpl line tn tr ty aux ds =>
      i32 line && rep_node tn && (0 <=? tr) && (tr <? 2 ^ 30) && okref ty && okcount aux && forallb okref aux &&
      okcount ds && forallb rep_sym ds
  end
with rep_lit (v : lit) : bool :=
  match v with
  | Lvoid => true
  | Lchr v => (0 <=? v) && (v <? 2 ^ 32)
  | Lint v => (0 <=? v) && (v <? 2 ^ 64) && lit_ok v
  | Lflt b => (0 <=? b) && (b <? 2 ^ 64)
  | Lstr b => okcount b
  | Llbl b => okstr b
  | Lbool v => i8 v
  | Lfunc f => rep_node f
  end
with rep_sym (y : sym) : bool :=
  match y with
  | Sym line nm ty v c g e p r x i f init =>
      i32 line && rep_node nm && okref ty && i32 v && i8 c && i8 g && i8 e && i8 p && i8 r && i8 x && i8 i && i8 f &&
      (if x =? 0 then true else rep_node init)
  end
with rep_stab (st : stab) : bool :=
  match st with
  | Stab nm ds ts =>
      okstr nm && okcount ds && forallb rep_sym ds &&
      okcount ts && forallb (fun e => rep_node (fst e) && okref (snd e) && isbuiltin (snd e)) ts
  end.
Definition rep_ucon (u : ucon) : bool :=
  i32 (u_line u) && nat31 (u_id u) && i8 (u_synth u) && rep_node (u_name u) && okref (u_ety u).
Definition rep_spec (s : tspec) : bool :=
  okcount (ts_traits s) && forallb rep_node (ts_traits s) && okref (ts_param s) && okref (ts_aux s).
Definition othertype (k : Z) : bool :=
  i8 k && negb (existsb (Z.eqb k) [20; 21; 23; 24; 25; 26; 27; 28; 29]).
Definition rep_ty (t : ty) : bool :=
  i8 (t_vis t) && okcount (t_spec t) && forallb rep_spec (t_spec t) && okref (t_seqaux t) && nat31 (t_nsub t) &&
  match t_body t with
  | Tunres nm => rep_node nm
  | Tparam need nm => okcount need && forallb (fun u => (0 <=? u) && (u <? 2 ^ 30)) need && okstr nm
  | Tstruct ds => okcount ds && forallb rep_node ds
  | Tunion us => okcount us && forallb rep_ucon us
  | Tarray s sz => (1 <=? t_nsub t) && okref s && rep_node sz
  | Tslice s => (1 <=? t_nsub t) && okref s
  | Tname nm args s => (1 <=? t_nsub t) && rep_node nm && okcount args && forallb okref args && okref s
  | Tgeneric nm ps s => (1 <=? t_nsub t) && rep_node nm && okcount ps && forallb okref ps && okref s
  | Tsubs k ss => othertype k && (t_nsub t =? Z.of_nat (length ss)) && forallb okref ss
  end.
Definition rep_trait (r : trait) : bool :=
  i32 (r_uid r) && i32 (r_vis r) && rep_node (r_name r) && rep_ty (r_param r) && okcount (r_aux r) &&
  forallb okref (r_aux r) && okcount (r_proto r) && forallb rep_sym (r_proto r).
Definition rep_item (i : item) : bool :=
  match i with
  | Ilib s | Iext s | Ifile s => okstr s
  | Itype tid t => i32 tid && rep_ty t
  | Itrait r => rep_trait r
  | Iimpl n | Iinit n | Ifini n => rep_node n
  | Idecl y => rep_sym y
  end.
End rep.

(* the value an importer sees: [lit] says what becomes of an integer literal, [vis] of a visibility, the
   initialiser of a declaration whose value is not exported is not there, and variables are not yet bound to
   declarations *)
Section image.
Variable lit : Z -> Z.
Variable vis : Z -> Z.
Fixpoint im_node (n : node) : node :=
  match n with
  | Nnull => Nnull
  | Nexpr line op _ ty param c idx args => Nexpr line op 0 ty param c (im_node idx) (map im_node args)
  | Nname line ns name => Nname line ns name
  | Nuse line l name => Nuse line l name
  | Nlit line ty nelt v => Nlit line ty nelt (im_lit v)
  | Nloop line a b c d => Nloop line (im_node a) (im_node b) (im_node c) (im_node d)
  | Niter line a b c => Niter line (im_node a) (im_node b) (im_node c)
  | Nmatchs line v ms => Nmatchs line (im_node v) (map im_node ms)
  | Nmatch line p b => Nmatch line (im_node p) (im_node b)
  | Nif line a b c => Nif line (im_node a) (im_node b) (im_node c)
  | Nblock line st ss => Nblock line (im_stab st) (map im_node ss)
  | Ndecl line nm ty c g e r p init => Ndecl line (im_node nm) ty c g e r p (im_node init)
  | Nfunc line ty st args body => Nfunc line ty (im_stab st) (map im_node args) (im_node body)
  | Nimpl line tn tr ty aux ds => Nimpl line (im_node tn) tr ty aux (map im_sym ds)
  end
with im_lit (v : Use_Model.lit) : Use_Model.lit :=
  match v with
  | Lint v => Lint (lit v)
  | Lfunc f => Lfunc (im_node f)
  | v => v
  end
with im_sym (y : sym) : sym :=
  match y with
  | Sym line nm ty v c g e p r x i f init =>
      Sym line (im_node nm) ty (vis v) c g e p r x i f (if x =? 0 then Nnull else im_node init)
  end
with im_stab (st : stab) : stab :=
  match st with
  | Stab nm ds ts => Stab nm (map im_sym ds) (map (fun e => (im_node (fst e), snd e)) ts)
  end.
Definition im_ucon (u : ucon) : ucon :=
  {| u_line := u_line u; u_id := u_id u; u_synth := u_synth u; u_name := im_node (u_name u); u_ety := u_ety u |}.
Definition im_spec (s : tspec) : tspec :=
  {| ts_traits := map im_node (ts_traits s); ts_param := ts_param s; ts_aux := ts_aux s |}.
Definition im_body (b : tbody) : tbody :=
  match b with
  | Tunres nm => Tunres (im_node nm)
  | Tparam need nm => Tparam need nm
  | Tstruct ds => Tstruct (map im_node ds)
  | Tunion us => Tunion (map im_ucon us)
  | Tarray s sz => Tarray s (im_node sz)
  | Tslice s => Tslice s
  | Tname nm args s => Tname (im_node nm) args s
  | Tgeneric nm ps s => Tgeneric (im_node nm) ps s
  | Tsubs k ss => Tsubs k ss
  end.
Definition im_ty (t : ty) : ty :=
  {| t_vis := vis (t_vis t); t_spec := map im_spec (t_spec t); t_seqaux := t_seqaux t; t_nsub := t_nsub t;
     t_body := im_body (t_body t) |}.
Definition im_trait (r : trait) : trait :=
  {| r_uid := r_uid r; r_vis := vis (r_vis r); r_name := im_node (r_name r); r_param := im_ty (r_param r);
     r_aux := r_aux r; r_proto := map im_sym (r_proto r) |}.
Definition im_item (i : item) : item :=
  match i with
  | Ilib s => Ilib s | Iext s => Iext s | Ifile s => Ifile s
  | Itype tid t => Itype tid (im_ty t)
  | Itrait r => Itrait (im_trait r)
  | Iimpl n => Iimpl (im_node n)
  | Idecl y => Idecl (im_sym y)
  | Iinit n => Iinit (im_node n)
  | Ifini n => Ifini (im_node n)
  end.
End image.

(* visibility as an importer sees it: hidden, or what the importer chooses *)
Definition hidden_only (v : Z) : Z := if v =? 2 then 2 else 0.
(* what 32 bits, read back signed into a 64-bit unsigned, keep of an integer *)
Definition through32 (v : Z) : Z :=
  if 2 ^ 31 <=? v mod 2 ^ 32 then v mod 2 ^ 32 + (2 ^ 64 - 2 ^ 32) else v mod 2 ^ 32.
