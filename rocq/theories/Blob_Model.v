(* Model of the static data the compiler emits for constant initialisers: 6/blob.c, and writeblob
   in 6/gengas.c.  Arithmetic is size_t arithmetic, modulo 2^64. *)
From Verif Require Import Base CUtil_Model Layout_Model.
Local Open Scope N_scope.

Definition sub64 (a b : N) : N := (a + W64 - b) mod W64.

(* Constant expressions as they reach the data emitter, each with its type (expr.type).
   Simplification: strings and the array behind a slice are the labels of separately emitted
   data (strtab, globls); a literal float is its bit pattern. *)
Inductive init :=
| Ivoid (t : ty)
| Iint (t : ty) (v : N)                      (* Lint; v is the uvlong intval *)
| Ibool (t : ty) (v : N)
| Ichr (t : ty) (v : N)
| Iflt32 (t : ty) (bits : N)
| Iflt64 (t : ty) (bits : N)
| Istr (t : ty) (lbl : string) (len : N)
| Ifunc (t : ty) (lbl : string)              (* Lfunc *)
| Ivar (t : ty) (lbl : string)               (* a global function *)
| Islice (t : ty) (lbl : string) (eltsz lo hi : N)   (* slice of a constant global array *)
| Iucon (t : ty) (name : string) (arg : option init)
| Istruct (t : ty) (args : list (string * init))
| Itup (t : ty) (args : list init)
| Iarr (t : ty) (args : list (N * init)).    (* each element with its index, sorted by fold *)

Definition exprtype (i : init) : ty :=
  match i with
  | Ivoid t | Iint t _ | Ibool t _ | Ichr t _ | Iflt32 t _ | Iflt64 t _ | Istr t _ _ | Ifunc t _ | Ivar t _
  | Islice t _ _ _ _ | Iucon t _ _ | Istruct t _ | Itup t _ | Iarr t _ => t
  end.
Definition size (i : init) : N := tysize (exprtype i).   (* 6/typeinfo.c:393-403 *)

(* Blob (6/asm.h), the kinds litblob makes *)
Inductive blob :=
| Bi (w : nat) (v : N)                       (* Bti8, Bti16, Bti32, Bti64: w bytes *)
| Bpad (n : N)
| Bref (lbl : string) (off : N).

(* blobpad, 6/blob.c:108-114: what is appended; it returns its argument *)
Definition blobpad (n : N) : list blob := if n =? 0 then [] else [Bpad n].

(* finducon and uc->id: constructors are numbered in order of declaration (parse/gram.y) *)
Fixpoint uconid (cs : list (string * option ty)) (name : string) (k : N) : N :=
  match cs with
  | [] => k
  | (c, _) :: cs => if String.eqb c name then k else uconid cs name (k + 1)
  end.
Definition ucons (t : ty) : list (string * option ty) := match tybase t with Tunion cs => cs | _ => [] end.
Definition members (t : ty) : list (string * ty) := match tybase t with Tstruct ms => ms | _ => [] end.

(* structmemb, 6/blob.c:212-221, on the emitted arguments *)
Fixpoint structmemb {A} (args : list (string * A)) (dcl : string) : option A :=
  match args with
  | [] => None
  | (x, a) :: args => if String.eqb x dcl then Some a else structmemb args dcl
  end.

(* blobstruct, the loop: 6/blob.c:236-244 *)
Fixpoint blobstruct (res : list (string * (list blob * N))) (dcls : list (string * ty)) (sz : N) : list blob * N :=
  match dcls with
  | [] => ([], sz)
  | (x, u) :: dcls =>
      let pad := alignto sz u in
      let b1 := blobpad (sub64 pad sz) in
      let sz := add64 sz (sub64 pad sz) in
      let '(b2, n) := match structmemb res x with
                      | Some r => r
                      | None => (blobpad (tysize u), tysize u)
                      end in
      let '(b3, sz) := blobstruct res dcls (add64 sz n) in
      ((b1 ++ b2 ++ b3)%list, sz)
  end.

(* the loop of Otup: 6/blob.c:303-307 *)
Fixpoint blobtup (res : list (ty * (list blob * N))) (sz : N) : list blob * N :=
  match res with
  | [] => ([], sz)
  | (u, (b2, n)) :: res =>
      let fin := alignto sz u in
      let b1 := blobpad (sub64 fin sz) in
      let sz := add64 sz (sub64 fin sz) in
      let '(b3, sz) := blobtup res (add64 sz n) in
      ((b1 ++ b2 ++ b3)%list, sz)
  end.

(* the loop of Oarr: 6/blob.c:321-329; each element with its index and its size *)
Fixpoint blobarr (res : list (N * N * (list blob * N))) (last sz : N) : list blob * N :=
  match res with
  | [] => ([], sz)
  | (idx, esz, (b2, n)) :: res =>
      let gap := if idx =? add64 last 1 then 0 else mul64 (sub64 idx last) esz in
      let b1 := blobpad gap in
      let '(b3, sz) := blobarr res (add64 idx 1) (add64 (add64 sz gap) n) in
      ((b1 ++ b2 ++ b3)%list, sz)
  end.

(* blobrec, 6/blob.c:285-339, with bloblit 116-174, blobslice 176-210, blobstruct 223-248,
   blobucon 250-268, blobvar 270-283.  The results of the subterms are computed first and looked
   up in the loops; the code recurses from inside them. *)
Fixpoint blobrec (i : init) : list blob * N :=
  match i with
  | Ivoid t => ([], tysize t)
  | Iint t v => ([Bi (N.to_nat (tysize t)) v], tysize t)
  | Ibool t v => ([Bi 1 v], tysize t)
  | Ichr t v => ([Bi 4 v], tysize t)
  | Iflt32 t v => ([Bi 4 v], tysize t)
  | Iflt64 t v => ([Bi 8 v], tysize t)
  | Istr t lbl len => ([if 0 <? len then Bref lbl 0 else Bi 8 0; Bi 8 len], tysize t)
  | Ifunc t lbl => ([Bi 8 0; Bref lbl 0], tysize t)
  | Ivar t lbl => ([Bi 8 0; Bref lbl 0], 16)
  | Islice t lbl eltsz lo hi => ([Bref lbl (mul64 lo eltsz); Bi 8 (sub64 hi lo)], 16)
  | Iucon t name arg =>
      let tag := Bi 4 (uconid (ucons t) name 0) in
      match arg with
      | None =>
          let p := sub64 (tysize t) 4 in ((tag :: blobpad p)%list, add64 4 p)
      | Some a =>
          let al := tyalign (exprtype a) in
          let gap := if 4 <? al then sub64 al 4 else 0 in
          let '(b, n) := blobrec a in
          let sz := add64 (add64 4 gap) n in
          let p := sub64 (tysize t) sz in
          ((tag :: blobpad gap ++ b ++ blobpad p)%list, add64 sz p)
      end
  | Istruct t args =>
      let '(b, sz) := blobstruct (map (fun a => (fst a, blobrec (snd a))) args) (members t) 0 in
      let fin := alignto sz t in
      ((b ++ blobpad (sub64 fin sz))%list, add64 sz (sub64 fin sz))
  | Itup t args =>
      match args with
      | [] => ([], 0)
      | _ :: _ =>
          let '(b, sz) := blobtup (map (fun a => (exprtype a, blobrec a)) args) 0 in
          let fin := alignto sz t in
          ((b ++ blobpad (sub64 fin sz))%list, add64 sz (sub64 fin sz))
      end
  | Iarr t args =>
      match args with
      | [] => ([], 0)
      | _ :: _ =>
          let '(b, sz) := blobarr (map (fun a => (fst a, size (snd a), blobrec (snd a))) args) 0 0 in
          let fin := alignto sz t in
          ((b ++ blobpad (sub64 fin sz))%list, add64 sz (sub64 fin sz))
      end
  end.

(* litblob, 6/blob.c:341-350 *)
Definition litblob (i : init) : list blob := fst (blobrec i).

(* What the assembler makes of the directives writeblob prints (6/gengas.c:311-324): little
   endian bytes, or the k-th byte of an address the linker fills in. *)
Inductive cell := Cbyte (b : N) | Caddr (lbl : string) (off : N) (k : nat).
Fixpoint le (w : nat) (v : N) : list cell :=
  match w with O => [] | S w => Cbyte (v mod 256) :: le w (v / 256) end.
Definition zeros (n : N) : list cell := repeat (Cbyte 0) (N.to_nat n).
Definition writeblob (b : blob) : list cell :=
  match b with
  | Bi w v => le w v
  | Bpad n => zeros n
  | Bref lbl off => map (Caddr lbl off) (seq 0 8)
  end.
Definition image (i : init) : list cell := flat_map writeblob (litblob i).
