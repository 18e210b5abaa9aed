(* Model of what is printed for an allocated instruction: register-to-register moves in 6/gengas.c iprintf. *)
From Verif Require Import Base Ra_Spec Ra_SemSpec.
Open Scope nat_scope.

(* coreg, 6/locs.c:176-286: the name with mode m of the storage of r; 0 (Rnone) is a failed assertion.  Rows for the
   pieces of sp and bp, the high bytes and the instruction pointer are absent, and the rows of xmm10-xmm15 name xmm0-xmm5. *)
Definition coreg (r : nat) (m : mode) : nat :=
  match hw r with
  | Gpr n =>
      if general r then match m with ModeB => 1 + n | ModeW => 21 + n | ModeL => 37 + n | ModeQ => 53 + n | _ => 0 end else 0
  | Xmm n =>
      let k := if n <? 10 then n else n - 10 in
      match m with ModeF => 69 + k | ModeD => 85 + k | _ => 0 end
  | _ => 0
  end.
(* issubreg and dumbmov, 6/ra.c:159-182, for two registers with colours *)
Definition issubreg (a b : nat) : bool :=
  negb (a =? 0) && negb (b =? 0) && rclass_eqb (classof (hwmode a)) (classof (hwmode b)) && negb (mode_eqb (hwmode a) (hwmode b)).
Definition dumbmov (a b : nat) : bool := negb (a =? 0) && negb (b =? 0) && (a =? b).

(* locs after allocation: reg.colour in place of the register, 6/ra.c:1454-1462 and 6/gengas.c:58-98 *)
Definition paintloc (col : list nat) (l : loc) : loc :=
  match l with
  | Lreg r => Lreg (nth r col 0)
  | Lmem b => Lmem (nth b col 0)
  | Lmemi b x => Lmemi (nth b col 0) (nth x col 0)
  | Lnone => Lnone
  end.
Definition paintinsn (col : list nat) (i : insn) : insn := mkInsn (uid i) (iop i) (map (paintloc col) (args i)).

(* iprintf, 6/gengas.c:108-149 (6/genp9.c:106-147 is the same): None when nothing is printed.  delnops, 6/ra.c:1380-1407, drops moves with equal colours earlier; they are dropped here in any case.  zext tells the Imovzx with modes
   L and Q; they become 32-bit moves.  Imovs goes the way of Imov: its operands have the same mode, so issubreg fails. *)
Definition emit (zext : nat -> bool) (i : insn) : option insn :=
  match iop i, args i with
  | Omov, [Lreg a; Lreg b] =>
      let a := if issubreg a b then coreg a (hwmode b) else a in
      if dumbmov a b then None else Some (mkInsn (uid i) Omov [Lreg a; Lreg b])
  | Oinsn _ _ _ _, [Lreg a; Lreg b] =>
      if zext (uid i) then
        let b := if b =? 0 then b else coreg b ModeL in
        if dumbmov a b then None else Some (mkInsn (uid i) Omov [Lreg a; Lreg b])
      else Some i
  | _, _ => Some i
  end.

(* the effect of what is printed for i *)
Definition exec_emitted (M : Type) act zext (p : prog) (col : list nat) (st : regs) (m : M) (i : insn) : regs * M :=
  match emit zext (paintinsn col i) with
  | None => (st, m)
  | Some i => exec M act zext p st m i
  end.
