(* Model of the type layout computations of the amd64 back end: tysize, tyalign, tyoffset
   (6/typeinfo.c), alignto, the tuple, union and closure offsets (6/simp.c) and the address
   arithmetic for array elements.  All arithmetic is size_t arithmetic, modulo 2^64. *)
From Verif Require Import Base CUtil_Model.
From Coq Require Export String.
From Coq Require Export List.
Export ListNotations.
Local Open Scope N_scope.

Definition Wordsz : N := 4.   (* 6/asm.h:2 *)
Definition Ptrsz : N := 8.    (* 6/asm.h:3 *)

Definition add64 (a b : N) : N := (a + b) mod W64.
Definition mul64 (a b : N) : N := (a * b) mod W64.

(* The scalar kinds of enum Ty (parse/parse.h, parse/types.def) that tysize gives a constant size. *)
Inductive prim :=
| Pvoid | Pbool | Pchar
| Pint8 | Pint16 | Pint | Pint32 | Pint64
| Pbyte | Puint8 | Puint16 | Puint | Puint32 | Puint64
| Pflt32 | Pflt64 | Pvalist.

(* Type (parse/parse.h), the resolved types that reach code generation.  The target of a pointer
   or slice is an index into the table of types, as in the compiler's type graph, so that a type
   may refer to itself through a pointer; every other edge is inline.  Function types carry no
   subtypes here: their layout does not depend on them.  An array whose size was not given has
   asize = NULL (None).  Simplification: an array's size is the value the size expression was
   folded to (a fold that is not a literal fails an assert); Tygeneric, Tyvar, Typaram, Tyunres
   and Tybad make tysize die and are left out. *)
Inductive ty :=
| Tprim (p : prim)
| Tptr (target : nat)
| Tslice (elt : nat)
| Tcode
| Tfunc
| Tname (def : ty)
| Tarray (asize : option N) (elt : ty)
| Ttuple (sub : list ty)
| Tstruct (memb : list (string * ty))
| Tunion (cons : list (string * option ty)).

(* tybase, parse/type.c:488-495 *)
Fixpoint tybase (t : ty) : ty :=
  match t with Tname d => tybase d | _ => t end.

(* tysize, the constant cases: 6/typeinfo.c:249-282 *)
Definition primsize (p : prim) : N :=
  match p with
  | Pvoid => 0
  | Pbool | Pint8 | Pbyte | Puint8 => 1
  | Pint16 | Puint16 => 2
  | Pint | Pint32 | Puint | Puint32 | Pchar => 4
  | Pvalist => Ptrsz
  | Pint64 | Puint64 => 8
  | Pflt32 => 4
  | Pflt64 => 8
  end.

(* tyalign, 6/typeinfo.c:316-349.  The default case is max(align, tysize(ty)) on a type whose
   size is constant; the constant is written out here, and default_align in Layout_Proofs.v
   checks it against tysize. *)
Fixpoint tyalign (t : ty) : N :=
  match t with
  | Tname d => tyalign d                                   (* ty = tybase(ty) *)
  | Tarray _ e => N.min (tyalign e) Ptrsz
  | Ttuple ts =>
      N.min ((fix go a l := match l with [] => a | x :: l => go (N.max a (tyalign x)) l end) 1 ts) Ptrsz
  | Tunion cs =>
      N.min ((fix go a (l : list (string * option ty)) := match l with
              | [] => a
              | (_, Some e) :: l => go (N.max a (tyalign e)) l
              | (_, None) :: l => go a l end) 4 cs) Ptrsz
  | Tstruct ms =>
      N.min ((fix go a (l : list (string * ty)) := match l with
              | [] => a | (_, x) :: l => go (N.max a (tyalign x)) l end) 1 ms) Ptrsz
  | Tslice _ => N.min 8 Ptrsz
  | Tprim p => N.min (N.max 1 (primsize p)) Ptrsz
  | Tptr _ | Tcode => N.min (N.max 1 Ptrsz) Ptrsz
  | Tfunc => N.min (N.max 1 (2 * Ptrsz)) Ptrsz
  end.

(* alignto, 6/simp.c:87-91 *)
Definition alignto (sz : N) (t : ty) : N := align sz (tyalign t).

(* tysize, 6/typeinfo.c:241-314 *)
Fixpoint tysize (t : ty) : N :=
  match t with
  | Tprim p => primsize p
  | Tptr _ => Ptrsz
  | Tcode => Ptrsz
  | Tfunc => 2 * Ptrsz
  | Tslice _ => 2 * Ptrsz
  | Tname d => tysize d
  | Tarray None _ => 0
  | Tarray (Some n) e => mul64 n (tysize e)
  | Ttuple ts =>
      alignto ((fix go sz l := match l with
                | [] => sz | x :: l => go (add64 (alignto sz x) (tysize x)) l end) 0 ts) (Ttuple ts)
  | Tstruct ms =>
      alignto ((fix go sz (l : list (string * ty)) := match l with
                | [] => sz | (_, x) :: l => go (add64 (alignto sz x) (tysize x)) l end) 0 ms) (Tstruct ms)
  | Tunion cs =>
      align ((fix go sz (l : list (string * option ty)) := match l with
              | [] => sz
              | (_, Some e) :: l => go (N.max sz (add64 (tysize e) Wordsz)) l
              | (_, None) :: l => go sz l end) Wordsz cs) (tyalign (Tunion cs))
  end.

(* tyoffset on a struct, 6/typeinfo.c:361-372; None: "bad offset" *)
Fixpoint structoff (off : N) (ms : list (string * ty)) (name : string) : option N :=
  match ms with
  | [] => None
  | (m, x) :: ms =>
      let off := alignto off x in
      if String.eqb name m then Some off else structoff (add64 off (tysize x)) ms name
  end.

(* tyoffset on a tuple, 6/typeinfo.c:373-381: the loop over i < idx, which looks at sub[i] and
   sub[i+1].  None: the assert that idx < nsub fails. *)
Fixpoint tupoff (off : N) (ts : list ty) (idx : nat) : option N :=
  match idx, ts with
  | O, _ :: _ => Some off
  | S idx, x :: ts => match ts with
                      | y :: _ => tupoff (alignto (add64 off (tysize x)) y) ts idx
                      | [] => None
                      end
  | _, _ => None
  end.

Inductive member := Mname (name : string) | Mlit (idx : nat).

(* tyoffset, 6/typeinfo.c:351-386; heap is the table of types pointers refer to *)
Definition tyoffset (heap : nat -> ty) (t : ty) (m : member) : option N :=
  let t := match tybase t with Tptr p => tybase (heap p) | t => t end in
  match m, t with
  | Mname s, Tstruct ms => structoff 0 ms s
  | Mlit i, Ttuple ts => tupoff 0 ts i
  | _, _ => None
  end.

(* tupget, 6/simp.c:740-755: the offset a tuple element is read from *)
Fixpoint tupgetoff (off : N) (ts : list ty) (idx : nat) : option N :=
  match ts with
  | [] => None
  | x :: ts =>
      let off := alignto off x in
      match idx with
      | O => Some off
      | S idx => tupgetoff (add64 off (tysize x)) ts idx
      end
  end.

(* simptup, 6/simp.c:840-845: the offsets tuple elements are stored to *)
Fixpoint simptup (off : N) (ts : list ty) : list N :=
  match ts with
  | [] => []
  | x :: ts => let off := alignto off x in off :: simptup (add64 off (tysize x)) ts
  end.

(* finducon, parse/type.c:373-383 *)
Fixpoint finducon (cs : list (string * option ty)) (name : string) : option (option ty) :=
  match cs with
  | [] => None
  | (c, e) :: cs => if String.eqb c name then Some e else finducon cs name
  end.

(* simpucon, 6/simp.c:887: where the payload is stored; the tag is at offset 0 (6/simp.c:877-880) *)
Definition uconoff (etype : ty) : N := alignto Wordsz etype.
(* simpuget, 6/simp.c:909: where the payload is read *)
Definition ugetoff (etype : ty) : N := alignto Wordsz etype.

(* idxaddr, 6/simp.c:492-495: the offset of element i *)
Definition idxoff (elt : ty) (i : N) : N := mul64 i (tysize elt).

(* capture, 6/simp.c:996-1001: the size recorded in the first word of a closure environment *)
Fixpoint envsize (sz : N) (env : list ty) : N :=
  match env with
  | [] => sz
  | x :: env => envsize (alignto (add64 sz (tysize x)) x) env
  end.
(* capture, 6/simp.c:1011-1018: the offsets the captured variables are stored to *)
Fixpoint envstore (off : N) (env : list ty) : list N :=
  match env with
  | [] => []
  | x :: env => let off := alignto off x in off :: envstore (add64 off (tysize x)) env
  end.
(* collectenv, 6/simp.c:1483-1488: the offsets the body of the closure reads them from *)
Fixpoint envload (off : N) (env : list ty) : list N :=
  match env with
  | [] => []
  | x :: env => let off := alignto off x in off :: envload (add64 off (tysize x)) env
  end.
