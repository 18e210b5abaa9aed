(* Model of lib/std/pathjoin.myr (C97, C98): pathnorm, pathjoin and pathcat.  Byte strings are lists of numbers, 46 is the
   dot and 47 the slash.  Freeing is left out; fmt of a slash and a string is the slash before the string. *)
From Verif Require Import Base ListX Sort_Model Utf_Model Str_Model.
Open Scope N_scope.

Definition dotdot : list byte := [46; 46].
(* the first loop, lib/std/pathjoin.myr:51-55; each round changes its own component only *)
Definition undot (comps : list (list byte)) : list (list byte) := map (fun c => if sleq c [46] then [] else c) comps.
(* the inner loop, lib/std/pathjoin.myr:69-75; r rounds left, that is i - del + 1 *)
Fixpoint scan (r del i : nat) (comps : list (list byte)) : list (list byte) :=
  match r with
  | O => comps
  | S r =>
      if (0 <? length (nth (i - del) comps []))%nat && negb (sleq (nth (i - del) comps []) dotdot)
      then upd (upd comps (i - del) []) i []
      else scan r (S del) i comps
  end.
(* the outer loop, lib/std/pathjoin.myr:65-76; r rounds left *)
Fixpoint resolve (r i : nat) (comps : list (list byte)) : list (list byte) :=
  match r with
  | O => comps
  | S r => if negb (sleq (nth i comps []) dotdot) then resolve r (S i) comps else resolve r (S i) (scan i 1 i comps)
  end.
(* the third loop and the slice, lib/std/pathjoin.myr:79-85 *)
Fixpoint compact (r i dst : nat) (comps : list (list byte)) : list (list byte) :=
  match r with
  | O => firstn dst comps
  | S r => if (0 <? length (nth i comps []))%nat then compact r (S i) (S dst) (upd comps dst (nth i comps [])) else compact r (S i) dst comps
  end.
(* the loop over the leading components and comps[i:], lib/std/pathjoin.myr:93-98 *)
Fixpoint dropup (comps : list (list byte)) : list (list byte) :=
  match comps with [] => [] | c :: rest => if negb (sleq c dotdot) then comps else dropup rest end.
(* pathnorm, lib/std/pathjoin.myr:40-108 *)
Definition pathnorm (junk : nat -> byte) (p : list byte) : outcome (list byte) :=
  match strsplit (S (length p)) p [47] with
  | Done comps =>
      let comps := undot comps in
      let comps := resolve (length comps) 0 comps in
      let comps := compact (length comps) 0 0 comps in
      if (0 <? length p)%nat && sleq (firstn 1 p) [47]
      then match strjoin junk (dropup comps) [47] with Done s => Done (47 :: s) | o => o end
      else if (length comps =? 0)%nat then Done [46]
      else strjoin junk comps [47]
  | Abort => Abort
  | OutOfFuel => OutOfFuel
  end.
(* the loop of pathjoin and l[i:], lib/std/pathjoin.myr:29-34 *)
Fixpoint dropempty (l : list (list byte)) : list (list byte) :=
  match l with [] => [] | s :: rest => if negb (length s =? 0)%nat then l else dropempty rest end.
(* pathjoin, lib/std/pathjoin.myr:26-38 *)
Definition pathjoin (junk : nat -> byte) (l : list (list byte)) : outcome (list byte) :=
  match strjoin junk (dropempty l) [47] with Done p => pathnorm junk p | o => o end.
(* pathcat, lib/std/pathjoin.myr:22-24 *)
Definition pathcat (junk : nat -> byte) (a b : list byte) : outcome (list byte) := pathjoin junk [a; b].
