(* Conditions under which the tagging of exports covers everything that is written. *)
From Verif Require Import Base Word CPack_Model Use_Model Export_Model.
Open Scope Z_scope.

(* a reference that needs no entry in the file *)
Definition trivial (r : ref) : bool := match r with Rtid _ => false | _ => true end.
Definition isname (n : node) : bool := match n with Nnull | Nname _ _ _ => true | _ => false end.
Definition isnull (n : node) : bool := match n with Nnull => true | _ => false end.
Definition ref_eqb (a b : ref) : bool :=
  match a, b with Rnull, Rnull => true | Rbuiltin a, Rbuiltin b => a =? b | Rtid a, Rtid b => a =? b | _, _ => false end.
Definition tags (ws : list work) (r : ref) : bool :=
  existsb (fun w => match w with WT r' => ref_eqb r r' | _ => false end) ws.

(* The types in a piece of code that is written are all tagged:
   - a scope declares only variables whose types (and exported values) the code below it mentions;
   - a local declaration with an initialiser is not inside the initialiser of another local declaration. *)
Fixpoint covered (p : prog) (ing : bool) (n : node) : bool :=
  match n with
  | Nnull | Nname _ _ _ | Nuse _ _ _ => true
  | Nblock _ st ss =>
      forallb (fun r => trivial r || tags (nodework p ing n) r) (refs_stab st) && forallb (covered p ing) ss
  | Nif _ c a b => covered p ing c && covered p ing a && covered p ing b
  | Nloop _ i c s b => covered p ing i && covered p ing c && covered p ing s && covered p ing b
  | Niter _ e s b => covered p ing e && covered p ing s && covered p ing b
  | Nmatchs _ v ms => covered p ing v && forallb (covered p ing) ms
  | Nmatch _ a b => covered p ing a && covered p ing b
  | Nexpr _ _ _ _ _ _ idx args => covered p ing idx && forallb (covered p ing) args
  | Nlit _ _ _ v => match v with Lfunc f => covered p ing f | _ => true end
  | Ndecl _ nm ty _ g _ _ _ init =>
      isname nm && (isnull init || ((isexportval p g false ty || ing) && covered p (negb (g =? 0)) init))
  | Nfunc _ _ st args body =>
      forallb (fun r => trivial r || tags (nodework p ing n) r) (refs_stab st) &&
      forallb (covered p ing) args && covered p ing body
  | Nimpl _ _ _ _ _ _ => false
  end.
(* a declaration whose value, if exported, is covered *)
Definition sname (y : sym) : node := match y with Sym _ nm _ _ _ _ _ _ _ _ _ _ _ => nm end.
Definition sval (y : sym) : node := match y with Sym _ _ _ _ _ _ _ _ _ _ _ _ init => init end.
Definition covered_sym (p : prog) (trait : bool) (y : sym) : bool :=
  isname (sname y) &&
  (negb (isexportval p (sgeneric y) trait (styp y)) || covered p (negb (sgeneric y =? 0)) (sval y)).
Definition covered_impl (p : prog) (n : node) : bool :=
  match n with Nimpl _ tn _ _ _ ds => isname tn && forallb (covered_sym p false) ds | _ => false end.
(* a type: members carry no initialisers, and the size of an array mentions only builtin types *)
Definition member_ok (n : node) : bool :=
  match n with Ndecl _ nm _ _ _ _ _ _ init => isname nm && isnull init | _ => false end.
Definition covered_ty (t : ty) : bool :=
  forallb (fun s => forallb isname (ts_traits s)) (t_spec t) &&
  match t_body t with
  | Tunres nm | Tname nm _ _ | Tgeneric nm _ _ => isname nm
  | Tstruct ds => forallb member_ok ds
  | Tunion us => forallb (fun u => isname (u_name u)) us
  | Tarray _ sz => forallb trivial (refs_node sz)
  | _ => true
  end.
Definition covered_prog (p : prog) : bool :=
  forallb covered_ty (p_types p) &&
  forallb (fun r => isname (x_name r) && forallb (covered_sym p true) (x_proto r)) (p_traits p) &&
  forallb (fun g => covered_sym p (d_trait g) (d_sym g)) (p_decls p) &&
  forallb (fun i => covered_impl p (snd i)) (p_impls p).

(* The tables are consistent: references point to table entries that are not builtin, nothing is hidden before
   tagging, exported types have a name in the package, and builtin traits are visible. *)
Definition valid_ref (p : prog) (r : ref) : bool :=
  match r with
  | Rtid t => (0 <=? t) && match tyof p t with Some y => (t_vis y =? 0) || (t_vis y =? 1) | None => false end
  | _ => true
  end.
Definition valid_work (p : prog) (w : work) : bool :=
  match w with
  | WT r => valid_ref p r
  | WR u => (0 <=? u) && match trof p u with Some r => (x_vis r =? 0) || (x_vis r =? 1) | None => false end
  | WD _ => true
  end.
Definition consistent (p : prog) : bool :=
  forallb (fun e => let t := snd e in
     ((t_vis t =? 0) || (t_vis t =? 1) || (t_vis t =? 3)) && forallb (valid_work p) (tywork t) &&
     (negb (t_vis t =? 1) || existsb (Z.eqb (fst e)) (p_named p))) (number 0 (p_types p)) &&
  forallb (fun r => ((x_vis r =? 0) || (x_vis r =? 1)) && forallb (valid_work p) (trwork p r)) (p_traits p) &&
  forallb (fun g => ((svis (d_sym g) =? 0) || (svis (d_sym g) =? 1) || (svis (d_sym g) =? 3)) && forallb (valid_work p) (dclwork p true (d_trait g) (d_sym g)))
    (p_decls p) &&
  forallb (fun i => ((fst i =? 0) || (fst i =? 1)) && forallb (valid_work p) (nodework p false (snd i)) &&
                    match snd i with Nimpl _ _ u _ _ _ => valid_work p (WR u) | _ => false end) (p_impls p).

(* the top-level declarations a piece of code mentions *)
Fixpoint globals (n : node) : list nat :=
  match n with
  | Nnull | Nname _ _ _ | Nuse _ _ _ | Nimpl _ _ _ _ _ _ => []
  | Nblock _ _ ss => flat_map globals ss
  | Nif _ c a b => globals c ++ globals a ++ globals b
  | Nloop _ i c s b => globals i ++ globals c ++ globals s ++ globals b
  | Niter _ e s b => globals e ++ globals s ++ globals b
  | Nmatchs _ v ms => globals v ++ flat_map globals ms
  | Nmatch _ a b => globals a ++ globals b
  | Nexpr _ op did _ _ _ idx args => globals idx ++ flat_map globals args ++ (if op =? Ovar then [did] else [])
  | Nlit _ _ _ v => match v with Lfunc f => globals f | _ => [] end
  | Ndecl _ _ _ _ _ _ _ _ init => globals init
  | Nfunc _ _ _ args body => flat_map globals args ++ globals body
  end.
(* d is visible to importers without any tagging *)
Definition visible (p : prog) (d : nat) : bool :=
  match dclof p d with Some g => svis (d_sym g) =? Visexport | None => true end.
(* local declarations inside the code are not initialised with internal declarations *)
Fixpoint direct (p : prog) (n : node) : bool :=
  match n with
  | Nnull | Nname _ _ _ | Nuse _ _ _ | Nimpl _ _ _ _ _ _ => true
  | Nblock _ _ ss => forallb (direct p) ss
  | Nif _ c a b => direct p c && direct p a && direct p b
  | Nloop _ i c s b => direct p i && direct p c && direct p s && direct p b
  | Niter _ e s b => direct p e && direct p s && direct p b
  | Nmatchs _ v ms => direct p v && forallb (direct p) ms
  | Nmatch _ a b => direct p a && direct p b
  | Nexpr _ _ _ _ _ _ idx args => direct p idx && forallb (direct p) args
  | Nlit _ _ _ v => match v with Lfunc f => direct p f | _ => true end
  | Ndecl _ _ _ _ _ _ _ _ init => forallb (visible p) (globals init)
  | Nfunc _ _ _ args body => forallb (direct p) args && direct p body
  end.
