(* Model of parse/export.c (which types, traits and declarations are written to the use file) and of the selection
   made by writeuse (parse/use.c:1241-1283), on the nodes and types of Use_Model.

   The C code marks types (tagged), traits and declarations (vis becomes Vishidden) in place and recurses.  Here the
   marks made so far are a list, and the calls still to be made are a list of [work]: entering something that is not
   marked yet marks it and puts the calls its body makes in front, which is the order of the recursion.
   Simplifications: [hidelocal] and [tagreflect] are left out (the first turns Visexport into Vishidden, and both are
   written; the second does not affect what is written).  Declarations are numbered by their place in the table of
   top-level declarations; a variable whose did is not in that table is local. *)
From Verif Require Import Base Word CPack_Model Use_Model.
Open Scope Z_scope.

Definition Visintern : Z := 0.
Definition Visexport : Z := 1.
Definition Visbuiltin : Z := 3.
Definition Ovar : Z := 51.                                             (* parse/ops.def *)

(* a top-level declaration; [d_trait]: it is a prototype of a trait (decl.trait is set) *)
Record gdecl := { d_sym : sym; d_trait : bool }.
(* a trait: the id of its parameter type, its auxiliary types and its prototypes *)
Record gtrait := { x_vis : Z; x_name : node; x_param : Z; x_aux : list Z; x_proto : list sym }.
Record prog := {
  p_types : list ty;              (* types[], indexed by type id *)
  p_traits : list gtrait;         (* traittab[], indexed by trait id *)
  p_decls : list gdecl;           (* the declarations of file.globls *)
  p_named : list Z;               (* the ids of the types in file.globls->ty *)
  p_impls : list (Z * node)       (* impltab[]: visibility and node *)
}.

Definition tyof (p : prog) (t : Z) : option ty := if t <? 0 then None else nth_error (p_types p) (Z.to_nat t).
Definition trof (p : prog) (u : Z) : option gtrait := if u <? 0 then None else nth_error (p_traits p) (Z.to_nat u).
Definition dclof (p : prog) (d : nat) : option gdecl := nth_error (p_decls p) d.
Definition svis (y : sym) : Z := match y with Sym _ _ _ v _ _ _ _ _ _ _ _ _ => v end.

Inductive work := WT (r : ref) | WR (u : Z) | WD (d : nat).
Inductive mark := MT (t : Z) | MR (u : Z) | MD (d : nat).
Definition mark_eqb (a b : mark) : bool :=
  match a, b with MT a, MT b => a =? b | MR a, MR b => a =? b | MD a, MD b => (a =? b)%nat | _, _ => false end.

(* decltype(n), parse/type.c: the type of a member of a struct *)
Definition decltype (n : node) : ref := match n with Ndecl _ _ t _ _ _ _ _ _ => t | _ => Rnull end.

(* the calls of tagtype for a type that is not tagged yet, parse/export.c:76-113 *)
Definition subs_of (b : tbody) : list ref :=
  match b with
  | Tarray s _ | Tslice s | Tname _ _ s | Tgeneric _ _ s => [s]
  | Tsubs _ ss => ss
  | _ => []
  end.
Definition tywork (t : ty) : list work :=
  WT (t_seqaux t) :: map WT (subs_of (t_body t)) ++
  flat_map (fun s => [WT (ts_param s); WT (ts_aux s)]) (t_spec t) ++
  match t_body t with
  | Tstruct ds => map (fun d => WT (decltype d)) ds
  | Tunion us => map (fun u => WT (u_ety u)) us
  | Tname _ args _ => map WT args
  | Tgeneric _ ps _ => map WT ps
  | Tparam need _ => map WR need
  | _ => []
  end.

(* tybase, parse/type.c:488-495: the names of a type are followed; None if that never ends (in C: it loops) *)
Fixpoint base (p : prog) (f : nat) (r : ref) : option Z :=
  match r with
  | Rnull => None
  | Rbuiltin k => Some k
  | Rtid t =>
      match f, tyof p t with
      | S f, Some y => match t_body y with Tname _ _ s | Tgeneric _ _ s => base p f s | b => Some (tkind b) end
      | _, _ => None
      end
  end.
(* istyprimitive, parse/type.c:385-429: bool up to flt64 *)
Definition isprimitive (p : prog) (r : ref) : bool :=
  match base p (S (length (p_types p))) r with Some k => (2 <=? k) && (k <=? 16) | None => false end.
(* isexportval, parse/export.c:115-124 *)
Definition isexportval (p : prog) (isgeneric : Z) (trait : bool) (t : ref) : bool :=
  (negb (isgeneric =? 0) && negb trait) || isprimitive p t.

(* tagnode, parse/export.c:126-213: the calls it makes, in order.  A local declaration is never a trait prototype. *)
Fixpoint nodework (p : prog) (ing : bool) (n : node) : list work :=
  match n with
  | Nnull | Nname _ _ _ | Nuse _ _ _ => []
  | Nblock _ _ ss => flat_map (nodework p ing) ss
  | Nif _ c a b => nodework p ing c ++ nodework p ing a ++ nodework p ing b
  | Nloop _ i c s b => nodework p ing i ++ nodework p ing c ++ nodework p ing s ++ nodework p ing b
  | Niter _ e s b => nodework p ing e ++ nodework p ing s ++ nodework p ing b
  | Nmatchs _ v ms => nodework p ing v ++ flat_map (nodework p ing) ms
  | Nmatch _ a b => nodework p ing a ++ nodework p ing b
  | Nexpr _ op did ty param _ idx args =>
      nodework p ing idx ++ [WT ty] ++ [WT param] ++ flat_map (nodework p ing) args ++
      (if ing && (op =? Ovar) then [WD did] else [])
  | Nlit _ ty _ v => WT ty :: match v with Lfunc f => nodework p ing f | _ => [] end
  | Ndecl _ _ ty _ g _ _ _ init =>
      WT ty :: (if isexportval p g false ty || ing then nodework p (negb (g =? 0)) init else [])
  | Nfunc _ ty _ args body => WT ty :: flat_map (nodework p ing) args ++ nodework p ing body
  | Nimpl _ _ _ ty aux ds => WT ty :: map WT aux ++ flat_map (symwork p) ds
  end
(* tagnode on a declaration of an impl: the flag is 0, parse/export.c:204 *)
with symwork (p : prog) (y : sym) : list work :=
  match y with
  | Sym _ _ ty _ _ g _ _ _ _ _ _ init =>
      WT ty :: (if isexportval p g false ty then nodework p (negb (g =? 0)) init else [])
  end.
(* tagnode on a top-level declaration or a prototype *)
Definition dclwork (p : prog) (ing trait : bool) (y : sym) : list work :=
  match y with
  | Sym _ _ ty _ _ g _ _ _ _ _ _ init =>
      WT ty :: (if isexportval p g trait ty || ing then nodework p (negb (g =? 0)) init else [])
  end.
(* tagtrait, parse/export.c:50-67 *)
Definition trwork (p : prog) (r : gtrait) : list work :=
  WT (Rtid (x_param r)) :: map (fun t => WT (Rtid t)) (x_aux r) ++ flat_map (dclwork p false true) (x_proto r).

(* What one call does: nothing, or it marks something and makes further calls.
   tagtype, parse/export.c:69-75; tagtrait, :55-60; the end of tagnode's Nexpr case, :169-176. *)
Definition enter (p : prog) (s : list mark) (w : work) : option (mark * list work) :=
  match w with
  | WT (Rtid t) =>
      match tyof p t with
      | Some y => if existsb (mark_eqb (MT t)) s then None else Some (MT t, tywork y)
      | None => None
      end
  | WT _ => None
  | WR u =>
      match trof p u with
      | Some r => if (x_vis r =? Visintern) && negb (existsb (mark_eqb (MR u)) s) then Some (MR u, trwork p r) else None
      | None => None
      end
  | WD d =>
      match dclof p d with
      | Some g => if (svis (d_sym g) =? Visintern) && negb (existsb (mark_eqb (MD d)) s)
                  then Some (MD d, dclwork p true (d_trait g) (d_sym g)) else None
      | None => None
      end
  end.
(* the recursion; [f] bounds the number of calls (Export_Proofs: there is always a sufficient bound) *)
Fixpoint run (p : prog) (f : nat) (ws : list work) (s : list mark) : option (list mark) :=
  match f with
  | O => None
  | S f =>
      match ws with
      | [] => Some s
      | w :: ws =>
          match enter p s w with
          | None => run p f ws s
          | Some (m, ws') => run p f (ws' ++ ws) (m :: s)
          end
      end
  end.

(* tagexports, parse/export.c:215-290: the calls it makes.  The initialisers it tags first are names, which tag
   nothing. *)
Definition exported (p : prog) (t : Z) : bool :=
  match tyof p t with Some y => t_vis y =? Visexport | None => false end.
Definition roots (p : prog) : list work :=
  flat_map (fun g => if svis (d_sym g) =? Visexport then dclwork p false (d_trait g) (d_sym g) else []) (p_decls p) ++
  map (fun t => WT (Rtid t)) (filter (exported p) (p_named p)) ++
  flat_map (fun r => if x_vis r =? Visexport then trwork p r else []) (p_traits p) ++
  flat_map (fun i => if fst i =? Visexport
                     then nodework p false (snd i) ++ match snd i with Nimpl _ _ u _ _ _ => [WR u] | _ => [] end
                     else []) (p_impls p).

(* the visibility after tagging, with marks [s] *)
Definition newvis (s : list mark) (m : mark) (v : Z) : Z :=
  if (v =? Visintern) && existsb (mark_eqb m) s then Vishidden else v.
Definition written (v : Z) : bool := (v =? Visexport) || (v =? Vishidden).

Fixpoint number {A} (k : Z) (l : list A) : list (Z * A) :=
  match l with [] => [] | x :: l => (k, x) :: number (k + 1) l end.
Definition setvis (v : Z) (t : ty) : ty :=
  {| t_vis := v; t_spec := t_spec t; t_seqaux := t_seqaux t; t_nsub := t_nsub t; t_body := t_body t |}.
Definition sset (v : Z) (x : bool) (y : sym) : sym :=
  match y with
  | Sym line nm ty _ c g e p r _ i f init => Sym line nm ty v c g e p r (if x then 1 else 0) i f init
  end.
Definition styp (y : sym) : ref := match y with Sym _ _ t _ _ _ _ _ _ _ _ _ _ => t end.
Definition sinit (y : sym) : bool := match y with Sym _ _ _ _ _ _ _ _ _ _ i _ _ => negb (i =? 0) end.
Definition sfini (y : sym) : bool := match y with Sym _ _ _ _ _ _ _ _ _ _ _ f _ => negb (f =? 0) end.

(* writeuse, parse/use.c:1241-1247 *)
Definition wtypes (p : prog) (s : list mark) : list item :=
  flat_map (fun e => let v := newvis s (MT (fst e)) (t_vis (snd e)) in
                     if written v then [Itype (fst e) (setvis v (snd e))] else []) (number 0 (p_types p)).
(* parse/use.c:1249-1257 *)
Definition blankty : ty := {| t_vis := 0; t_spec := []; t_seqaux := Rnull; t_nsub := 0; t_body := Tsubs 0 [] |}.
Definition wtraits (p : prog) (s : list mark) : list item :=
  flat_map (fun e => let v := newvis s (MR (fst e)) (x_vis (snd e)) in
                     if negb (fst e <? Ntraits) && written v
                     then [Itrait {| r_uid := fst e; r_vis := v; r_name := x_name (snd e);
                                     r_param := match tyof p (x_param (snd e)) with Some t => t | None => blankty end;
                                     r_aux := map Rtid (x_aux (snd e));
                                     r_proto := map (fun y => sset v (isexportval p (sgeneric y) true (styp y)) y) (x_proto (snd e)) |}]
                     else []) (number 0 (p_traits p)).
(* parse/use.c:1259-1267; the declarations of an impl are hidden *)
Definition hideimpl (p : prog) (n : node) : node :=
  match n with
  | Nimpl line tn u t aux ds =>
      Nimpl line tn u t aux (map (fun y => sset Vishidden (isexportval p (sgeneric y) false (styp y)) y) ds)
  | n => n
  end.
Definition wimpls (p : prog) : list item :=
  flat_map (fun i => if written (fst i) then [Iimpl (hideimpl p (snd i))] else []) (p_impls p).
(* parse/use.c:1269-1283 *)
Definition wdecls (p : prog) (s : list mark) : list item :=
  flat_map (fun e => let y := d_sym (snd e) in
                     let v := newvis s (MD (Z.to_nat (fst e))) (svis y) in
                     if (v =? Visintern) || (v =? Visbuiltin) then []
                     else if d_trait (snd e) || sinit y || sfini y then []
                     else [Idecl (sset v (isexportval p (sgeneric y) (d_trait (snd e)) (styp y)) y)]) (number 0 (p_decls p)).
Definition entries (p : prog) (s : list mark) : list item :=
  wtypes p s ++ wtraits p s ++ wimpls p ++ wdecls p s.

(* fixtypemappings and fixtraitmappings, parse/use.c:782-858: every type id and every trait id that was read is looked
   up; [die] if it is missing *)
Fixpoint refs_node (n : node) : list ref :=
  match n with
  | Nnull | Nname _ _ _ | Nuse _ _ _ => []
  | Nexpr _ _ _ ty param _ idx args => ty :: param :: refs_node idx ++ flat_map refs_node args
  | Nlit _ ty _ v => ty :: match v with Lfunc f => refs_node f | _ => [] end
  | Nloop _ a b c d => refs_node a ++ refs_node b ++ refs_node c ++ refs_node d
  | Niter _ a b c => refs_node a ++ refs_node b ++ refs_node c
  | Nmatchs _ v ms => refs_node v ++ flat_map refs_node ms
  | Nmatch _ p b => refs_node p ++ refs_node b
  | Nif _ a b c => refs_node a ++ refs_node b ++ refs_node c
  | Nblock _ st ss => refs_stab st ++ flat_map refs_node ss
  | Ndecl _ nm ty _ _ _ _ _ init => refs_node nm ++ ty :: refs_node init
  | Nfunc _ ty st args body => ty :: refs_stab st ++ flat_map refs_node args ++ refs_node body
  | Nimpl _ tn _ ty aux ds => refs_node tn ++ ty :: aux ++ flat_map refs_sym ds
  end
with refs_sym (y : sym) : list ref :=
  match y with
  | Sym _ nm ty _ _ _ _ _ _ x _ _ init => refs_node nm ++ ty :: (if x =? 0 then [] else refs_node init)
  end
with refs_stab (st : stab) : list ref :=
  match st with
  | Stab _ ds ts => flat_map refs_sym ds ++ flat_map (fun e => refs_node (fst e) ++ [snd e]) ts
  end.
Definition refs_ty (t : ty) : list ref :=
  flat_map (fun s => flat_map refs_node (ts_traits s) ++ [ts_param s; ts_aux s]) (t_spec t) ++ t_seqaux t ::
  match t_body t with
  | Tunres nm => refs_node nm
  | Tparam _ _ => []
  | Tstruct ds => flat_map refs_node ds
  | Tunion us => flat_map (fun u => refs_node (u_name u) ++ [u_ety u]) us
  | Tarray s sz => s :: refs_node sz
  | Tslice s => [s]
  | Tname nm args s => refs_node nm ++ args ++ [s]
  | Tgeneric nm ps s => refs_node nm ++ ps ++ [s]
  | Tsubs _ ss => ss
  end.
Definition refs_item (i : item) : list ref :=
  match i with
  | Ilib _ | Iext _ | Ifile _ => []
  | Itype _ t => refs_ty t
  | Itrait r => refs_node (r_name r) ++ refs_ty (r_param r) ++ r_aux r ++ flat_map refs_sym (r_proto r)
  | Iimpl n | Iinit n | Ifini n => refs_node n
  | Idecl y => refs_sym y
  end.
Definition traits_ty (t : ty) : list Z := match t_body t with Tparam need _ => need | _ => [] end.
Definition traits_item (i : item) : list Z :=
  match i with
  | Itype _ t => traits_ty t
  | Itrait r => traits_ty (r_param r)
  | Iimpl (Nimpl _ _ u _ _ _) => [u]
  | _ => []
  end.
Definition defines_type (is : list item) (t : Z) : bool :=
  existsb (fun i => match i with Itype t' _ => t' =? t | _ => false end) is.
Definition defines_trait (is : list item) (u : Z) : bool :=
  (u <? Ntraits) || existsb (fun i => match i with Itrait r => r_uid r =? u | _ => false end) is.
Definition resolves (is : list item) : bool :=
  forallb (fun r => match r with Rtid t => defines_type is t | _ => true end) (flat_map refs_item is) &&
  forallb (defines_trait is) (flat_map traits_item is).
(* loaduse up to the fix-up of types and traits, parse/use.c:920-1073 *)
Definition loaduse (s : stream) : res (option (option (list Z) * list item)) :=
  match rduse s with
  | RVal (Some (pkg, is)) s => if resolves is then RVal (Some (pkg, is)) s else RDie
  | r => r
  end.
