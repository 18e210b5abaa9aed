(* C97, C98: where a path leads.  Nothing here is taken from the code. *)
From Coq Require Import List NArith.
From Verif Require Import Str_Spec.
Import ListNotations.
Open Scope N_scope.

(* the text between the slashes (byte 47) *)
Fixpoint pieces (s : list N) : list (list N) :=
  match s with
  | [] => [[]]
  | 47 :: s => [] :: pieces s
  | c :: s => match pieces s with p :: ps => (c :: p) :: ps | [] => [[c]] end
  end.
(* a place: so many steps up, then these names down *)
Definition place : Type := nat * list (list N).
Definition go (p : place) (c : list N) : place :=
  match c with
  | [] | [46] => p
  | [46; 46] => match snd p with [] => (S (fst p), []) | _ => (fst p, removelast (snd p)) end
  | _ => (fst p, snd p ++ [c])
  end.
Definition walk (ps : list (list N)) : place := fold_left go ps (O, []).
Definition absolute (p : list N) : bool := match p with 47 :: _ => true | _ => false end.
(* above the root there is only the root *)
Definition place_of (root : bool) (ps : list (list N)) : bool * place := (root, (if root then O else fst (walk ps), snd (walk ps))).
Definition leads (p : list N) : bool * place := place_of (absolute p) (pieces p).
(* the shortest text for a place *)
Definition show (p : bool * place) : list N :=
  let '(root, (up, down)) := p in
  if root then 47 :: joined down [47]
  else match repeat [46; 46] up ++ down with [] => [46] | l => joined l [47] end.
