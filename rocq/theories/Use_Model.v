(* Model of the serialisation in parse/use.c: nodes, symbols, scopes, types, traits and whole use files.
   It is built on the model of util/pack.c (CPack_Model).

   Simplifications, here and below.
   - A pointer to a Type is represented by what wrtype writes for it: nothing, a builtin type, or the id of
     a type (its index in the table of types).
   - Source locations keep the line only (the file number is not written; the reader uses the last file).
   - Hash tables are the list of their entries in the order htkeys delivers them.
   - Parent links of scopes, environments of type parameters, and the merging of types that several use files
     define (tydedup) are not modelled.
   - A count read from a file that is negative makes an allocation of absurd size and dies. *)
From Verif Require Import Base Word CPack_Model.
Open Scope Z_scope.

(* what reading can do: deliver a value, stop with an error, or undefined behaviour *)
Inductive res (A : Type) := RVal (a : A) (s : stream) | RDie | RUB.
Arguments RVal {A} a s.
Arguments RDie {A}.
Arguments RUB {A}.

Definition rdr (A : Type) := stream -> res A.
Definition ret {A} (a : A) : rdr A := fun s => RVal a s.
Definition die {A} : rdr A := fun _ => RDie.
Definition undef {A} : rdr A := fun _ => RUB.
Definition bind {A B} (r : rdr A) (k : A -> rdr B) : rdr B :=
  fun s => match r s with RVal a s => k a s | RDie => RDie | RUB => RUB end.
Notation "x <- r ;; k" := (bind r (fun x => k)) (at level 100, r at next level, right associativity).
Definition lift {A} (r : stream -> option (A * stream)) : rdr A :=
  fun s => match r s with Some (a, s) => RVal a s | None => RDie end.

Definition gint : rdr Z := lift rdint.
Definition gbyte : rdr Z := lift rdbyte.
Definition gbool : rdr Z := lift rdbool.
Definition gstr : rdr (option (list Z)) := lift rdstr.
Fixpoint gtimes {A} (n : nat) (r : rdr A) : rdr (list A) :=
  match n with O => ret [] | S n => x <- r ;; l <- gtimes n r ;; ret (x :: l) end.
(* the loops [n = rdint(fd); for (i = 0; i < n; i++) ...] *)
Definition glist {A} (r : rdr A) : rdr (list A) :=
  n <- gint ;; if n <? 0 then die else gtimes (Z.to_nat n) r.
Definition wlist {A} (w : A -> stream) (l : list A) : stream := wrint (Z.of_nat (length l)) ++ flat_map w l.

(* a Type pointer as it appears in a use file *)
Inductive ref := Rnull | Rbuiltin (k : Z) | Rtid (t : Z).
Definition Builtinmask : Z := 2 ^ 30.                                   (* parse/use.c:44 *)
(* wrtype, parse/use.c:315-328 *)
Definition wrtype (r : ref) : stream :=
  wrint (match r with Rnull => 0 | Rbuiltin k => Z.lor k Builtinmask | Rtid t => t end).
(* rdtype, parse/use.c:330-344.  tid is uintptr_t. *)
Definition rdtype : rdr ref :=
  i <- gint ;;
  let tid := uwrap 64 i in
  ret (if tid =? 0 then Rnull
       else if Z.land tid Builtinmask =? 0 then Rtid tid
       else Rbuiltin (Z.land tid (Z.lnot Builtinmask))).

(* the number of builtin traits, parse/trait.def *)
Definition Ntraits : Z := 8.
(* parse/use.c:252-255 *)
Definition wrtrait (u : Z) : stream := wrint (if u <? Ntraits then Z.lor u Builtinmask else u).
(* rdtrait, parse/use.c:346-364; the result is the id of the trait before the fix-up through trmap, which maps
   the ids of the builtin traits to themselves (parse/use.c:974-976) *)
Definition rdtrait : rdr Z :=
  i <- gint ;;
  let tid := uwrap 64 i in
  ret (if Z.land tid Builtinmask =? 0 then tid else Z.land tid (Z.lnot Builtinmask)).

(* struct Node, parse/parse.h: the fields that pickle writes *)
Inductive node :=
| Nnull                                                              (* a NULL pointer *)
| Nexpr (line op : Z) (did : nat) (ty : ref) (param : ref) (isconst : Z) (idx : node) (args : list node)
    (* did, the index of the declaration a variable refers to, is not written *)
| Nname (line : Z) (ns name : option (list Z))
| Nuse (line islocal : Z) (name : option (list Z))
| Nlit (line : Z) (ty : ref) (nelt : Z) (v : lit)
| Nloop (line : Z) (init cond step body : node)
| Niter (line : Z) (elt seq body : node)
| Nmatchs (line : Z) (val : node) (matches : list node)
| Nmatch (line : Z) (pat block : node)
| Nif (line : Z) (cond iftrue iffalse : node)
| Nblock (line : Z) (scope : stab) (stmts : list node)
| Ndecl (line : Z) (name : node) (ty : ref) (isconst isgeneric isextern isnoret ispkglocal : Z) (init : node)
| Nfunc (line : Z) (ty : ref) (scope : stab) (args : list node) (body : node)
| Nimpl (line : Z) (traitname : node) (trait : Z) (ty : ref) (aux : list ref) (decls : list sym)
with lit :=
| Lchr (v : Z) | Lbool (v : Z) | Lint (v : Z) | Lflt (bits : Z) | Lstr (b : list Z) | Lfunc (f : node)
| Llbl (b : option (list Z)) | Lvoid
(* a declaration in a scope or at top level; [vis] is Visintern 0, Visexport 1, Vishidden 2 or Visbuiltin 3 *)
with sym :=
| Sym (line : Z) (name : node) (ty : ref) (vis isconst isgeneric isextern ispkglocal isnoret isexportval isinit isfini : Z)
      (init : node)
with stab :=
| Stab (name : option (list Z)) (dcls : list sym) (types : list (node * ref)).

Definition Vishidden : Z := 2.

(* pickle, parse/use.c:489-607; wrstab, :70-93; wrsym, :164-184.  The node types and literal types are numbered
   as in parse/nodes.def and parse/lits.def. *)
Fixpoint pickle (n : node) : stream :=
  match n with
  | Nnull => wrbyte 0
  | Nexpr line op _ ty param isconst idx args =>
      wrbyte 8 ++ wrint line ++ wrbyte op ++ wrtype ty ++
      (match param with Rnull => wrbool 0 | _ => wrbool 1 ++ wrtype param end) ++
      wrbool isconst ++ pickle idx ++ wlist pickle args
  | Nname line ns name =>
      wrbyte 10 ++ wrint line ++ (match ns with None => wrbool 0 | Some _ => wrbool 1 ++ wrstr ns end) ++ wrstr name
  | Nuse line islocal name => wrbyte 7 ++ wrint line ++ wrbool islocal ++ wrstr name
  | Nlit line ty nelt v =>
      wrbyte 9 ++ wrint line ++
      wrbyte (match v with Lchr _ => 0 | Lbool _ => 1 | Lint _ => 2 | Lflt _ => 3 | Lstr _ => 4 | Lfunc _ => 5
                         | Llbl _ => 6 | Lvoid => 7 end) ++
      wrtype ty ++ wrint nelt ++ wrlit v
  | Nloop line i c s b => wrbyte 3 ++ wrint line ++ pickle i ++ pickle c ++ pickle s ++ pickle b
  | Niter line e s b => wrbyte 4 ++ wrint line ++ pickle e ++ pickle s ++ pickle b
  | Nmatchs line v ms => wrbyte 5 ++ wrint line ++ pickle v ++ wlist pickle ms
  | Nmatch line p b => wrbyte 6 ++ wrint line ++ pickle p ++ pickle b
  | Nif line c t f => wrbyte 2 ++ wrint line ++ pickle c ++ pickle t ++ pickle f
  | Nblock line st ss => wrbyte 1 ++ wrint line ++ wrstab st ++ wlist pickle ss
  | Ndecl line name ty c g e r p init =>
      wrbyte 11 ++ wrint line ++ pickle name ++ wrtype ty ++
      wrbool c ++ wrbool g ++ wrbool e ++ wrbool r ++ wrbool p ++ pickle init
  | Nfunc line ty st args body =>
      wrbyte 12 ++ wrint line ++ wrtype ty ++ wrstab st ++ wlist pickle args ++ pickle body
  | Nimpl line tn tr ty aux decls =>
      wrbyte 13 ++ wrint line ++ pickle tn ++ wrint tr ++ wrtype ty ++ wlist wrtype aux ++ wlist wrsym decls
  end
with wrlit (v : lit) : stream :=
  match v with
  | Lvoid => []
  | Lchr v => wrint v
  | Lint v => wrint v
  | Lflt b => wrflt b
  | Lstr b => wrlenstr b
  | Llbl b => wrstr b
  | Lbool v => wrbool v
  | Lfunc f => pickle f
  end
with wrsym (y : sym) : stream :=
  match y with
  | Sym line name ty vis c g e p r x i f init =>
      wrint line ++ pickle name ++ wrtype ty ++
      wrint vis ++ wrbool c ++ wrbool g ++ wrbool e ++ wrbool p ++ wrbool r ++ wrbool x ++ wrbyte i ++ wrbyte f ++
      (if x =? 0 then [] else pickle init)
  end
with wrstab (st : stab) : stream :=
  match st with
  | Stab name dcls types =>
      wrstr name ++ wlist wrsym dcls ++ wlist (fun e => pickle (fst e) ++ wrtype (snd e)) types
  end.

(* unpickle, parse/use.c:612-748; rdsym, :186-215; rdstab, :97-121.  [f] bounds the nesting; [unpickle] below
   supplies the length of the stream, which always suffices.
   - rdsym sets only ishidden from the visibility; the visibility itself becomes the given default (0 here).
     The reader's isinit and isfini come from rdbool, which reads a byte.
   - rdstab passes the address of the local variable ty to rdtype.  Only for a builtin type is ty set before
     puttype uses it; otherwise an uninitialised pointer is stored and the later fix-up writes through the address
     of a dead variable: undefined behaviour. *)
Definition rdscopety : rdr ref :=
  r <- rdtype ;; match r with Rbuiltin _ => ret r | _ => undef end.

Fixpoint unpickle_f (f : nat) : rdr node :=
  match f with
  | O => die
  | S f =>
      t <- gbyte ;;
      if t =? 0 then ret Nnull else
      line <- gint ;;
      if t =? 8 then
        op <- gbyte ;; ty <- rdtype ;;
        b <- gbool ;;
        param <- (if b =? 0 then ret Rnull else rdtype) ;;
        c <- gbool ;; idx <- unpickle_f f ;; args <- glist (unpickle_f f) ;;
        ret (Nexpr line op 0 ty param c idx args)
      else if t =? 10 then
        b <- gbool ;; ns <- (if b =? 0 then ret None else gstr) ;; name <- gstr ;;
        ret (Nname line ns name)
      else if t =? 7 then
        l <- gbool ;; name <- gstr ;; ret (Nuse line l name)
      else if t =? 9 then
        lt <- gbyte ;; ty <- rdtype ;; nelt <- gint ;;
        v <- (if lt =? 7 then ret Lvoid
              else if lt =? 0 then v <- gint ;; ret (Lchr (uwrap 32 v))       (* uint32_t chrval *)
              else if lt =? 2 then v <- gint ;; ret (Lint (uwrap 64 v))       (* uvlong intval *)
              else if lt =? 3 then v <- lift rdflt ;; ret (Lflt v)
              else if lt =? 4 then v <- lift rdlenstr ;; ret (Lstr v)
              else if lt =? 6 then v <- gstr ;; ret (Llbl v)
              else if lt =? 1 then v <- gbool ;; ret (Lbool v)
              else if lt =? 5 then v <- unpickle_f f ;; ret (Lfunc v)
              else die) ;;
        ret (Nlit line ty nelt v)
      else if t =? 3 then
        i <- unpickle_f f ;; c <- unpickle_f f ;; s <- unpickle_f f ;; b <- unpickle_f f ;; ret (Nloop line i c s b)
      else if t =? 4 then
        e <- unpickle_f f ;; s <- unpickle_f f ;; b <- unpickle_f f ;; ret (Niter line e s b)
      else if t =? 5 then
        v <- unpickle_f f ;; ms <- glist (unpickle_f f) ;; ret (Nmatchs line v ms)
      else if t =? 6 then
        p <- unpickle_f f ;; b <- unpickle_f f ;; ret (Nmatch line p b)
      else if t =? 2 then
        c <- unpickle_f f ;; a <- unpickle_f f ;; b <- unpickle_f f ;; ret (Nif line c a b)
      else if t =? 1 then
        st <- rdstab_f f ;; ss <- glist (unpickle_f f) ;; ret (Nblock line st ss)
      else if t =? 11 then
        name <- unpickle_f f ;; ty <- rdtype ;;
        c <- gbool ;; g <- gbool ;; e <- gbool ;; r <- gbool ;; p <- gbool ;;
        init <- unpickle_f f ;; ret (Ndecl line name ty c g e r p init)
      else if t =? 12 then
        ty <- rdtype ;; st <- rdstab_f f ;; args <- glist (unpickle_f f) ;; body <- unpickle_f f ;;
        ret (Nfunc line ty st args body)
      else if t =? 13 then
        tn <- unpickle_f f ;; tr <- rdtrait ;; ty <- rdtype ;; aux <- glist rdtype ;; ds <- glist (rdsym_f f) ;;
        ret (Nimpl line tn tr ty aux ds)
      else die
  end
with rdsym_f (f : nat) : rdr sym :=
  match f with
  | O => die
  | S f =>
      line <- gint ;; name <- unpickle_f f ;; ty <- rdtype ;;
      v <- gint ;;
      c <- gbool ;; g <- gbool ;; e <- gbool ;; p <- gbool ;; r <- gbool ;; x <- gbool ;; i <- gbool ;; fi <- gbool ;;
      init <- (if x =? 0 then ret Nnull else unpickle_f f) ;;
      ret (Sym line name ty (if v =? Vishidden then Vishidden else 0) c g e p r x i fi init)
  end
with rdstab_f (f : nat) : rdr stab :=
  match f with
  | O => die
  | S f =>
      name <- gstr ;; ds <- glist (rdsym_f f) ;;
      ts <- glist (nm <- unpickle_f f ;; ty <- rdscopety ;; ret (nm, ty)) ;;
      ret (Stab name ds ts)
  end.
Definition unpickle : rdr node := fun s => unpickle_f (S (length s)) s.
Definition rdsym : rdr sym := fun s => rdsym_f (S (length s)) s.

(* struct Ucon; wrucon, parse/use.c:123-133; rducon, :135-158 *)
Record ucon := { u_line : Z; u_id : Z; u_synth : Z; u_name : node; u_ety : ref }.
Definition wrucon (u : ucon) : stream :=
  wrint (u_line u) ++ wrint (u_id u) ++ wrbool (u_synth u) ++ pickle (u_name u) ++
  (match u_ety u with Rnull => wrbool 0 | _ => wrbool 1 ++ wrtype (u_ety u) end).
Definition rducon : rdr ucon :=
  line <- gint ;; id <- gint ;; sy <- gbool ;; nm <- unpickle ;;
  b <- gbool ;; e <- (if b =? 0 then ret Rnull else rdtype) ;;
  ret {| u_line := line; u_id := uwrap 64 id; u_synth := sy; u_name := nm; u_ety := e |}.

(* struct Traitspec, parse/parse.h *)
Record tspec := { ts_traits : list node; ts_param : ref; ts_aux : ref }.
(* the part of struct Type that depends on its kind.  [Tsubs k] is every kind that the default case handles. *)
Inductive tbody :=
| Tunres (name : node)
| Tparam (need : list Z) (name : option (list Z))
| Tstruct (ds : list node)
| Tunion (us : list ucon)
| Tarray (sub : ref) (size : node)
| Tslice (sub : ref)
| Tname (name : node) (args : list ref) (sub : ref)
| Tgeneric (name : node) (params : list ref) (sub : ref)
| Tsubs (k : Z) (subs : list ref).
Record ty := { t_vis : Z; t_spec : list tspec; t_seqaux : ref; t_nsub : Z; t_body : tbody }.

(* parse/types.def *)
Definition tkind (b : tbody) : Z :=
  match b with
  | Tunres _ => 27 | Tparam _ _ => 26 | Tstruct _ => 23 | Tunion _ => 24 | Tarray _ _ => 21 | Tslice _ => 20
  | Tname _ _ _ => 28 | Tgeneric _ _ _ => 29 | Tsubs k _ => k
  end.

Definition wrspec (s : tspec) : stream :=
  wlist pickle (ts_traits s) ++ wrtype (ts_param s) ++
  (match ts_aux s with Rnull => wrbool 0 | _ => wrbool 1 ++ wrtype (ts_aux s) end).
(* typickle, parse/use.c:217-296.  Tyvar, for which it dies, is kind 25 of [Tsubs]; the theorems exclude it. *)
Definition typickle (t : ty) : stream :=
  wrbyte (tkind (t_body t)) ++ wrbyte (t_vis t) ++ wlist wrspec (t_spec t) ++ wrtype (t_seqaux t) ++ wrint (t_nsub t) ++
  match t_body t with
  | Tunres nm => pickle nm
  | Tparam need nm => wlist wrtrait need ++ wrstr nm
  | Tstruct ds => wlist pickle ds
  | Tunion us => wlist wrucon us
  | Tarray s sz => wrtype s ++ pickle sz
  | Tslice s => wrtype s
  | Tname nm args s => pickle nm ++ wlist wrtype args ++ wrtype s
  | Tgeneric nm ps s => pickle nm ++ wlist wrtype ps ++ wrtype s
  | Tsubs _ ss => flat_map wrtype ss
  end.

Definition rdspec : rdr tspec :=
  ts <- glist unpickle ;; p <- rdtype ;;
  b <- gbool ;; a <- (if b =? 0 then ret Rnull else rdtype) ;;
  ret {| ts_traits := ts; ts_param := p; ts_aux := a |}.
(* &ty->sub[0], parse/use.c:394-395: sub is allocated only when nsub > 0 *)
Definition rdsub0 (nsub : Z) : rdr ref := if nsub <? 1 then undef else rdtype.
(* tyunpickle, parse/use.c:367-448.  Only the hidden visibility survives. *)
Definition tyunpickle : rdr ty :=
  k <- gbyte ;; v <- gbyte ;; sp <- glist rdspec ;; sq <- rdtype ;; n <- gint ;;
  b <- (if k =? 27 then nm <- unpickle ;; ret (Tunres nm)
        else if k =? 26 then need <- glist rdtrait ;; nm <- gstr ;; ret (Tparam need nm)
        else if k =? 23 then ds <- glist unpickle ;; ret (Tstruct ds)
        else if k =? 24 then us <- glist rducon ;; ret (Tunion us)
        else if k =? 21 then s <- rdsub0 n ;; sz <- unpickle ;; ret (Tarray s sz)
        else if k =? 20 then s <- rdsub0 n ;; ret (Tslice s)
        else if k =? 28 then nm <- unpickle ;; args <- glist rdtype ;; s <- rdsub0 n ;; ret (Tname nm args s)
        else if k =? 29 then nm <- unpickle ;; ps <- glist rdtype ;; s <- rdsub0 n ;; ret (Tgeneric nm ps s)
        else if n <? 0 then die
        else ss <- gtimes (Z.to_nat n) rdtype ;; ret (Tsubs k ss)) ;;
  ret {| t_vis := if v =? Vishidden then Vishidden else 0; t_spec := sp; t_seqaux := sq; t_nsub := n; t_body := b |}.

(* struct Trait; traitpickle, parse/use.c:298-313; traitunpickle, :450-481 *)
Record trait := { r_uid : Z; r_vis : Z; r_name : node; r_param : ty; r_aux : list ref; r_proto : list sym }.
Definition traitpickle (r : trait) : stream :=
  wrint (r_uid r) ++ wrint (r_vis r) ++ pickle (r_name r) ++ typickle (r_param r) ++
  wlist wrtype (r_aux r) ++ wlist wrsym (r_proto r).
Definition traitunpickle : rdr trait :=
  u <- gint ;; v <- gint ;; nm <- unpickle ;; p <- tyunpickle ;; aux <- glist rdtype ;; ps <- glist rdsym ;;
  ret {| r_uid := u; r_vis := if v =? Vishidden then Vishidden else 0; r_name := nm; r_param := p; r_aux := aux; r_proto := ps |}.

(* one entry of a use file *)
Inductive item :=
| Ilib (name : option (list Z))          (* 'L' *)
| Iext (name : option (list Z))          (* 'X' *)
| Ifile (name : option (list Z))         (* 'F' *)
| Itype (tid : Z) (t : ty)               (* 'T' *)
| Itrait (r : trait)                     (* 'R' *)
| Iimpl (n : node)                       (* 'I' *)
| Idecl (y : sym)                        (* 'D', or 'G' for a generic *)
| Iinit (n : node)                       (* 'S' *)
| Ifini (n : node).                      (* 'E' *)
Definition sgeneric (y : sym) : Z := match y with Sym _ _ _ _ _ g _ _ _ _ _ _ _ => g end.
(* the loop bodies of writeuse, parse/use.c:1222-1297 *)
Definition writem (i : item) : stream :=
  match i with
  | Ilib s => wrbyte 76 ++ wrstr s
  | Iext s => wrbyte 88 ++ wrstr s
  | Ifile s => wrbyte 70 ++ wrstr s
  | Itype tid t => wrbyte 84 ++ wrint tid ++ typickle t
  | Itrait r => wrbyte 82 ++ traitpickle r
  | Iimpl n => wrbyte 73 ++ pickle n
  | Idecl y => wrbyte (if sgeneric y =? 0 then 68 else 71) ++ wrsym y
  | Iinit n => wrbyte 83 ++ pickle n
  | Ifini n => wrbyte 69 ++ pickle n
  end.
Definition Abiversion : Z := 23.                                         (* parse/parse.h:2 *)
(* writeuse, parse/use.c:1202-1300: the header, then the entries *)
Definition wruse (pkg : option (list Z)) (is : list item) : stream :=
  wrbyte 85 ++ wrint Abiversion ++ wrstr pkg ++ flat_map writem is.

(* one step of the loop of loaduse, parse/use.c:977-1071; a byte that starts no entry is skipped *)
Definition rditem (c : Z) : rdr (option item) :=
  if c =? 76 then s <- gstr ;; ret (Some (Ilib s))
  else if c =? 88 then s <- gstr ;; ret (Some (Iext s))
  else if c =? 70 then s <- gstr ;; ret (Some (Ifile s))
  else if (c =? 71) || (c =? 68) then y <- rdsym ;; ret (Some (Idecl y))
  else if c =? 83 then n <- unpickle ;; ret (Some (Iinit n))
  else if c =? 69 then n <- unpickle ;; ret (Some (Ifini n))
  else if c =? 82 then r <- traitunpickle ;; ret (Some (Itrait r))
  else if c =? 84 then i <- gint ;; t <- tyunpickle ;; ret (Some (Itype i t))
  else if c =? 73 then n <- unpickle ;; ret (Some (Iimpl n))
  else ret None.
Fixpoint rditems (f : nat) (s : stream) : res (list item) :=
  match f with
  | O => RDie
  | S f =>
      match s with
      | [] => RVal [] []
      | c :: s =>
          match rditem c s with
          | RVal o s =>
              match rditems f s with
              | RVal is s => RVal (match o with Some i => i :: is | None => is end) s
              | e => e
              end
          | RDie => RDie
          | RUB => RUB
          end
      end
  end.
(* the reading part of loaduse, parse/use.c:920-1071: None in the value is the result 0 (not a use file, or of
   another version) *)
Definition rduse (s : stream) : res (option (option (list Z) * list item)) :=
  match s with
  | [] => RVal None []
  | c :: s =>
      if negb (c =? 85) then RVal None s else
      (v <- gint ;;
       if negb (v =? Abiversion) then ret None else
       pkg <- gstr ;;
       fun s => match rditems (S (length s)) s with
                | RVal is s => RVal (Some (pkg, is)) s
                | RDie => RDie
                | RUB => RUB
                end) s
  end.
