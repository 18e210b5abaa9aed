(* Model of type unification: parse/infer.c occurs_rec, occursin, tylookup, tyrank, unionunify, structunify, membunify,
   basetype, checksize, unify and parse/type.c tysearch, tybase, tyeq_rec with its cache.
   The heap holds the types, numbered as in C by tid; it does not change.  The state holds what does: tytab and eqcache.
   Simplified: names are already resolved (no Tyunres, no instantiation of generics in tf :645-672) and no type parameter is
   bound by an environment (boundtype, stab.c:740, is NULL); array sizes are present and folded to literals (checksize's
   filling in of missing sizes :1156-1159 is left out); traits, reflection flags and the delayed types of literals
   (mergetraits :1015, tagreflect, delayed :1253-1262) are left out; error reports end the program: Err.
   Every loop or recursion takes fuel; running out of it is the distinct outcome Fuel. *)
From Verif Require Import Base Unify_Spec.
Open Scope nat_scope.

Inductive res (A : Type) := Ok (x : A) | Err | Fuel.
Arguments Ok {A}. Arguments Err {A}. Arguments Fuel {A}.
Definition bind {A B} (r : res A) (f : A -> res B) : res B := match r with Ok x => f x | Err => Err | Fuel => Fuel end.
Notation "'do' p <- r ; e" := (bind r (fun p => e)) (at level 60, p pattern, r at level 59, right associativity).

Record state := St { tab : links; cache : list (tid * tid) }.                          (* tytab, eqcache *)
Definition setlink (l : links) (x y : tid) : links := fun z => if z =? x then Some y else l z.
Definition link (s : state) (x y : tid) : state := St (setlink (tab s) x y) (cache s).
Definition init : state := St (fun _ => None) [].

Definition has (l : list tid) (x : tid) : bool := existsb (Nat.eqb x) l.               (* bshas *)
Definition put (l : list tid) (x : tid) : list tid := x :: l.                          (* bsput *)
Definition del (l : list tid) (x : tid) : list tid := filter (fun y => negb (y =? x)) l.   (* bsdel *)

Fixpoint tylookup (f : nat) (l : links) (t : tid) : res (tid * links) :=                (* infer.c:586-615; tf :645 *)
  match f with
  | O => Fuel
  | S f => match l t with
           | None => Ok (t, l)
           | Some p => match l p with
                       | Some g => tylookup f (setlink l t g) g                          (* shift the link up one level *)
                       | None => tylookup f l p
                       end
           end
  end.
Definition tf (f : nat) (s : state) (t : tid) : res (tid * state) :=
  do (a, l) <- tylookup f (tab s) t; Ok (a, St l (cache s)).
Fixpoint tysearch (f : nat) (l : links) (t : tid) : res tid :=                           (* infer.c:575-583 *)
  match f with O => Fuel | S f => match l t with None => Ok t | Some p => tysearch f l p end end.

Section WithHeap.
Variable h : heap.
Let nd := nodeof h.

(* occurs_rec, infer.c:363-398.  The set bs is the current path: on success each node taken is given back, so it is passed down *)
Fixpoint anyoccurs (rec : links -> tid -> res (bool * links)) (l : links) (ts : list tid) : res (bool * links) :=
  match ts with
  | [] => Ok (false, l)
  | t :: ts => do (r, l) <- rec l t; if r then Ok (true, l) else anyoccurs rec l ts
  end.
Fixpoint occurs_rec (f : nat) (l : links) (bs : list tid) (sub : tid) : res (bool * links) :=
  match f with
  | O => Fuel
  | S f =>
      do (a, l) <- tylookup (S f) l sub;
      if has bs a then Ok (true, l) else
      let go := anyoccurs (fun l t => occurs_rec f l (put bs a) t) l in
      match nd a with
      | Nptr _ | Nslice _ => Ok (false, l)
      | Nstruct ms => go (map snd ms)
      | Nunion ms => go (flat_map (fun m => oparts (snd m)) ms)
      | Narray _ t => go [t]
      | Nfunc ts | Ntuple ts => go ts
      | Nname _ _ t => go [t]
      | Nvar _ | Nprim _ | Nparam _ => Ok (false, l)
      end
  end.
Definition occursin (f : nat) (l : links) (a b : tid) : res (bool * links) :=           (* infer.c:399-411 *)
  do (a, l) <- tylookup f l a; occurs_rec f l (put [] a) b.

(* tyeq_rec, type.c:809-930, with search = 1.  The state is (eqcache, avisited, bvisited) *)
Definition eqst := (list (tid * tid) * list tid * list tid)%type.
Definition cached (c : list (tid * tid)) (a b : tid) : bool := existsb (fun p => (fst p =? a) && (snd p =? b)) c.
Section Tyeq.
Variable rec : eqst -> tid -> tid -> res (bool * eqst).
Definition tyeq_opt (e : eqst) (x y : option tid) : res (bool * eqst) :=                 (* :817-818 *)
  match x, y with Some a, Some b => rec e a b | None, None => Ok (true, e) | _, _ => Ok (false, e) end.
Fixpoint tyeq_membs (e : eqst) (ms ms' : list (name * option tid)) : res (bool * eqst) :=  (* :865-888 *)
  match ms, ms' with
  | (n, x) :: ms, (n', y) :: ms' =>
      do (r, e) <- tyeq_opt e x y; if (n =? n')%N && r then tyeq_membs e ms ms' else Ok (false, e)
  | _, _ => Ok (true, e)
  end.
Fixpoint tyeq_list (e : eqst) (xs ys : list tid) : res (bool * eqst) :=                  (* :901-905, :915-922 *)
  match xs, ys with
  | x :: xs, y :: ys => do (r, e) <- rec e x y; if r then tyeq_list e xs ys else Ok (false, e)
  | _, _ => Ok (true, e)
  end.
Definition smembs (ms : list (name * tid)) : list (name * option tid) := map (fun m => (fst m, Some (snd m))) ms.
Definition tyeq_node (e : eqst) (a b : node) : res (bool * eqst) :=                      (* :845-922 *)
  match a, b with
  | Nprim _, Nprim _ => Ok (true, e)
  | Nparam n, Nparam n' => Ok ((n =? n')%N, e)
  | Nvar _, Nvar _ => Ok (false, e)                                                       (* tids are known to differ *)
  | Nptr t, Nptr t' | Nslice t, Nslice t' => rec e t t'
  | Narray z t, Narray z' t' => if (z =? z')%N then rec e t t' else Ok (false, e)
  | Nfunc ts, Nfunc ts' | Ntuple ts, Ntuple ts' => tyeq_list e ts ts'
  | Nname n us t, Nname n' us' t' =>
      if (n =? n')%N then do (r, e) <- tyeq_list e us us'; if r then rec e t t' else Ok (false, e) else Ok (false, e)
  | Nstruct ms, Nstruct ms' => tyeq_membs e (smembs ms) (smembs ms')
  | Nunion ms, Nunion ms' => tyeq_membs e ms ms'
  | _, _ => Ok (false, e)
  end.
End Tyeq.
Definition samekind (a b : node) : bool :=                                                (* a->type == b->type *)
  match a, b with
  | Nvar _, Nvar _ | Nparam _, Nparam _ | Nptr _, Nptr _ | Nslice _, Nslice _ | Narray _ _, Narray _ _ | Nfunc _, Nfunc _
  | Ntuple _, Ntuple _ | Nname _ _ _, Nname _ _ _ | Nstruct _, Nstruct _ | Nunion _, Nunion _ => true
  | Nprim k, Nprim k' => (k =? k')%N
  | _, _ => false
  end.
Definition nsub (a : node) : nat :=
  match a with Nptr _ | Nslice _ | Narray _ _ | Nname _ _ _ => 1 | Nfunc ts | Ntuple ts => length ts | _ => 0 end.
Definition narg (a : node) : nat := match a with Nname _ us _ => length us | _ => 0 end.
Definition nmemb (a : node) : nat := match a with Nstruct ms => length ms | Nunion ms => length ms | _ => 0 end.
Fixpoint tyeq_rec (f : nat) (l : links) (e : eqst) (a b : tid) : res (bool * eqst) :=
  match f with
  | O => Fuel
  | S f =>
      do a <- tysearch (S f) l a; do b <- tysearch (S f) l b;
      if negb (samekind (nd a) (nd b)) then Ok (false, e) else
      if negb (narg (nd a) =? narg (nd b)) then Ok (false, e) else
      if negb (nsub (nd a) =? nsub (nd b)) then Ok (false, e) else
      if negb (nmemb (nd a) =? nmemb (nd b)) then Ok (false, e) else
      let '(c, av, bv) := e in
      if cached c a b then Ok (true, e) else
      if a =? b then Ok (true, e) else
      if has av a && has bv b then Ok (true, e) else
      if has bv a && has av b then Ok (true, e) else
      do (r, e) <- tyeq_node (tyeq_rec f l) (c, put av a, put bv b) (nd a) (nd b);
      let '(c, av, bv) := e in
      Ok (r, (if r then (a, b) :: c else c, del av a, del bv b))                           (* equate :795-807 *)
  end.
Definition tyeq (f : nat) (s : state) (a b : tid) : res (bool * state) :=                  (* type.c:948-960 *)
  do (r, e) <- tyeq_rec f (tab s) (cache s, [], []) a b; Ok (r, St (tab s) (fst (fst e))).

Definition tyrank (a : node) : nat := match a with Nvar None => 0 | Nvar (Some _) => 1 | _ => 2 end.   (* infer.c:1035-1046 *)
Fixpoint tybase (f : nat) (t : tid) : res tid :=                                           (* type.c:488-495 *)
  match f with O => Fuel | S f => match nd t with Nname _ _ t => tybase f t | _ => Ok t end end.
Definition seqaux (a : node) : option tid := match a with Nvar s => s | _ => None end.
(* infer.c:1127-1142, before the final tf *)
Fixpoint basetype (f : nat) (t : tid) : res (option tid) :=
  match f with
  | O => Fuel
  | S f => match nd t with
           | Nvar s => Ok s
           | Nname _ _ t => basetype f t
           | Nslice t | Narray _ t | Nptr t => Ok (Some t)
           | _ => Ok None
           end
  end.

Section Unify.
Variable unify : state -> tid -> tid -> res state.
Fixpoint unify_list (s : state) (xs ys : list tid) : res state :=                          (* infer.c:1229-1230, 1240-1241 *)
  match xs, ys with x :: xs, y :: ys => do s <- unify s x y; unify_list s xs ys | _, _ => Ok s end.
(* infer.c:1048-1110: for one member of u, all the members of v of that name; the flag tells whether there was one *)
Fixpoint unify_memb (s : state) (n : name) (x : option tid) (ms : list (name * option tid)) : res (bool * state) :=
  match ms with
  | [] => Ok (false, s)
  | (n', y) :: ms =>
      if (n =? n')%N then
        do s <- match x, y with Some x, Some y => unify s x y | None, None => Ok s | _, _ => Err end;
        do (_, s) <- unify_memb s n x ms; Ok (true, s)
      else unify_memb s n x ms
  end.
Fixpoint unify_membs (s : state) (ms ms' : list (name * option tid)) : res state :=
  match ms with
  | [] => Ok s
  | (n, x) :: ms => do (found, s) <- unify_memb s n x ms'; if found then unify_membs s ms ms' else Err
  end.
Definition membunify (f : nat) (s : state) (u v : tid) : res state :=                       (* infer.c:1112-1125 *)
  do u <- tybase f u; do v <- tybase f v;
  if u =? v then Ok s else
  match nd u, nd v with
  | Nunion ms, Nunion ms' => if length ms =? length ms' then unify_membs s ms ms' else Err
  | Nstruct ms, Nstruct ms' => if length ms =? length ms' then unify_membs s (smembs ms) (smembs ms') else Err
  | _, _ => Ok s
  end.
(* infer.c:1210-1243 for types that are not variables *)
Definition matchup (s : state) (a b : node) : res state :=
  match a, b with
  | Nprim k, Nprim k' => if (k =? k')%N then Ok s else Err
  | Nparam _, Nparam _ => Ok s
  | Nptr t, Nptr t' | Nslice t, Nslice t' => unify s t t'
  | Narray z t, Narray z' t' => if (z =? z')%N then unify s t t' else Err                   (* checksize :1144-1164 *)
  | Nfunc ts, Nfunc ts' | Ntuple ts, Ntuple ts' => if length ts =? length ts' then unify_list s ts ts' else Err
  | Nname n us t, Nname n' us' t' =>
      if negb (n =? n')%N then Err else
      do s <- (if (0 <? length us) && (0 <? length us') then                                (* hasargs *)
                 if length us =? length us' then unify_list s us us' else Err else Ok s);
      unify s t t'
  | Nstruct _, Nstruct _ | Nunion _, Nunion _ => Ok s                                       (* membunify does these *)
  | _, _ => Err
  end.
End Unify.

Fixpoint unify (f : nat) (s : state) (u v : tid) : res state :=                             (* infer.c:1173-1272 *)
  match f with
  | O => Fuel
  | S f =>
      do (a, s) <- tf (S f) s u;
      do (b, s) <- tf (S f) s v;
      if a =? b then Ok s else
      let '(a, b) := if tyrank (nd b) <? tyrank (nd a) then (b, a) else (a, b) in
      if isvar (nd a) then
        do s <- (if isvar (nd b) then Ok s else
                 do (r, l) <- occursin (S f) (tab s) a b; if r then Err else Ok (St l (cache s)));
        let s := link s a b in
        do ea <- basetype (S f) a; do eb <- basetype (S f) b;
        match ea, eb with
        | Some ea, Some eb =>
            do (ea, s) <- tf (S f) s ea; do (eb, s) <- tf (S f) s eb; unify f s ea eb
        | Some e, None | None, Some e => do (_, s) <- tf (S f) s e; Ok s
        | None, None => Ok s
        end
      else
        do (r, s) <- tyeq (S f) s a b;
        let s := if r then link s a b else s in
        do s <- matchup (unify f) s (nd a) (nd b);
        membunify (unify f) (S f) s a b
  end.
End WithHeap.

(* a sequence of calls, as inference makes them *)
Fixpoint unify_all (h : heap) (f : nat) (s : state) (cs : list (tid * tid)) : res state :=
  match cs with [] => Ok s | (u, v) :: cs => do s <- unify h f s u v; unify_all h f s cs end.
