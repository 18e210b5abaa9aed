(* What running assembly-level programs means, for programs over virtual and machine registers.  Nothing here is about
   the allocator. *)
From Verif Require Import Base Ra_Spec.
Open Scope Z_scope.

Definition bits (m : mode) : Z :=
  match m with ModeNone => 0 | ModeB => 8 | ModeW => 16 | ModeL => 32 | ModeQ => 64 | ModeF => 32 | ModeD => 64 end.

(* The contents of registers: machine storage is shared by all names of a machine register, every virtual register has its own. *)
Record regs := mkRegs { cell : hwreg -> Z; virt : nat -> Z }.
Definition hw_dec (a b : hwreg) : {a = b} + {a <> b}.
Proof. decide equality; apply Nat.eq_dec. Defined.

(* reading register r: the low bits of its storage.  (The high bytes %ah.. are not given a meaning: see namable.) *)
Definition rd (st : regs) (r : nat) : Z :=
  if (r <? nphys)%nat then cell st (hw r) mod 2 ^ bits (hwmode r) else virt st r.
(* writing the part of size m of storage holding c: a 32-bit write clears the rest, other writes keep it *)
Definition put (m : mode) (c v : Z) : Z :=
  match m with ModeL => v mod 2 ^ 32 | _ => c - c mod 2 ^ bits m + v mod 2 ^ bits m end.
Definition wr (p : prog) (st : regs) (r : nat) (v : Z) : regs :=
  if (r <? nphys)%nat
  then mkRegs (fun h => if hw_dec h (hw r) then put (hwmode r) (cell st h) v else cell st h) (virt st)
  else mkRegs (cell st) (fun x => if (x =? r)%nat then v mod 2 ^ bits (vmode p r) else virt st x).

(* the registers an instruction reads and writes, in order *)
Definition opregs (ks : list nat) (l : list loc) : list nat :=
  flat_map (fun k => match nth_error l (k - 1) with Some (Lreg r) => [r] | _ => [] end) ks.
Definition addrregs (l : list loc) : list nat :=
  flat_map (fun a => match a with Lmem b => [b] | Lmemi b x => [b; x] | _ => [] end) l.
Definition inputs (i : insn) : list nat := opregs (op_ul (iop i)) (args i) ++ op_ur (iop i) ++ addrregs (args i).
Definition outputs (i : insn) : list nat := opregs (op_dl (iop i)) (args i) ++ op_dr (iop i).

Section Run.
(* Memory, flags and everything else outside registers; what instruction number u does, given the values it reads: the
   values it writes and the new memory; which block follows block b; and which instructions are zero extensions of 32 to 64 bits *)
Variable M : Type.
Variable act : nat -> list Z -> M -> list Z * M.
Variable goto : nat -> M -> nat.
Variable zext : nat -> bool.

Fixpoint wrs (p : prog) (st : regs) (ds : list nat) (vs : list Z) : regs :=
  match ds with [] => st | d :: ds => wrs p (wr p st d (hd 0 vs)) ds (tl vs) end.

(* i moves a value from register to register: a copy, or a zero extension *)
Definition transfer (i : insn) : option (nat * nat) :=
  match iop i, args i with
  | Omov, [Lreg a; Lreg b] => Some (a, b)
  | Oinsn _ _ _ _, [Lreg a; Lreg b] => if zext (uid i) then Some (a, b) else None
  | _, _ => None
  end.
Definition exec (p : prog) (st : regs) (m : M) (i : insn) : regs * M :=
  match transfer i with
  | Some (a, b) => (wr p st b (rd st a), m)
  | None => let '(vs, m) := act (uid i) (map (rd st) (inputs i)) m in (wrs p st (outputs i) vs, m)
  end.

(* one step; ex gives the effect of an instruction.  None: the block chosen is not a successor *)
Definition config := (point * regs * M)%type.
Definition step1 (ex : regs -> M -> insn -> regs * M) (p : prog) (c : config) : option config :=
  let '(b, k, st, m) := c in
  match blk p b with
  | None => None
  | Some bb =>
      match nth_error (il bb) k with
      | Some i => let '(st, m) := ex st m i in Some ((b, S k), st, m)
      | None => let s := goto b m in if existsb (Nat.eqb s) (succs bb) then Some ((s, 0%nat), st, m) else None
      end
  end.
Fixpoint steps (ex : regs -> M -> insn -> regs * M) (p : prog) (n : nat) (c : config) : option config :=
  match n with
  | O => Some c
  | S n => match step1 ex p c with Some c => steps ex p n c | None => None end
  end.
End Run.

(* Register copies keep the size or take the low part of an integer. *)
Definition narrow_copies (p : prog) : Prop :=
  forall i src dst, in_prog p i -> copies i src dst ->
    vmode p src = vmode p dst \/
    (classof (vmode p src) = Classint /\ classof (vmode p dst) = Classint /\ framereg src = false /\ framereg dst = false /\ bits (vmode p dst) <= bits (vmode p src)).
(* After a copy into a machine register no wider name of that register is needed. *)
Definition whole_copies (p : prog) : Prop :=
  forall b k i src d r, insn_at p (b, k) i -> copies i src d -> (d < nphys)%nat -> (r < nphys)%nat -> Needed p r (b, S k) -> hw r = hw d ->
    bits (hwmode r) <= bits (hwmode d).
(* The registers instructions read and write implicitly are machine registers. *)
Definition implicit_machine (p : prog) : Prop :=
  forall i r, in_prog p i -> In r (op_ur (iop i)) \/ In r (op_dr (iop i)) -> (r < nphys)%nat.
(* Zero extensions read a 32-bit register and write a 64-bit one. *)
Definition zext_form (zext : nat -> bool) (p : prog) : Prop :=
  forall i, in_prog p i -> zext (uid i) = true -> exists a b, iop i = Oinsn [1%nat] [] [2%nat] [] /\ args i = [Lreg a; Lreg b] /\
    vmode p a = ModeL /\ vmode p b = ModeQ /\ framereg a = false /\ framereg b = false.
