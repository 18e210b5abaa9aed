(* Assembly-level programs as the register allocator sees them, and what it means for a
   register to be live, for two registers to be needed at the same time, and for two names
   of machine registers to denote the same storage.  Nothing here is about the algorithm. *)
From Verif Require Import Base.

(* operand sizes, 6/asm.h enum Mode *)
Inductive mode := ModeNone | ModeB | ModeW | ModeL | ModeQ | ModeF | ModeD.
Inductive rclass := Classbad | Classint | Classflt.
Definition classof (m : mode) : rclass :=
  match m with
  | ModeNone => Classbad
  | ModeB | ModeW | ModeL | ModeQ => Classint
  | ModeF | ModeD => Classflt
  end.
Definition mode_eqb (a b : mode) : bool :=
  match a, b with
  | ModeNone, ModeNone | ModeB, ModeB | ModeW, ModeW | ModeL, ModeL
  | ModeQ, ModeQ | ModeF, ModeF | ModeD, ModeD => true
  | _, _ => false
  end.
Definition rclass_eqb (a b : rclass) : bool :=
  match a, b with
  | Classbad, Classbad | Classint, Classint | Classflt, Classflt => true
  | _, _ => false
  end.

(* ---------- machine registers ---------- *)

(* Register numbers 0..101 are the machine registers of 6/regs.def, in its order:
   0 none, 1-16 bytes, 17-20 high bytes, 21-36 words, 37-52 longs, 53-68 quads,
   69-84 single floats, 85-100 double floats, 101 the instruction pointer.  Within each group of
   sixteen the order is ax cx dx bx si di sp bp r8..r15 (xmm0..xmm15).
   Numbers from 102 on are virtual registers. *)
Definition nphys : nat := 102.
Inductive hwreg := Gpr (n : nat) | Xmm (n : nat) | Ip | Nohw.
(* which storage a machine register name denotes (part of) *)
Definition hw (r : nat) : hwreg :=
  if r =? 0 then Nohw else
  if r <=? 16 then Gpr (r - 1) else
  if r <=? 20 then Gpr (r - 17) else
  if r <=? 36 then Gpr (r - 21) else
  if r <=? 52 then Gpr (r - 37) else
  if r <=? 68 then Gpr (r - 53) else
  if r <=? 84 then Xmm (r - 69) else
  if r <=? 100 then Xmm (r - 85) else
  if r =? 101 then Ip else Nohw.
(* the size of a machine register *)
Definition hwmode (r : nat) : mode :=
  if r <=? 20 then ModeB else
  if r <=? 36 then ModeW else
  if r <=? 52 then ModeL else
  if r <=? 68 then ModeQ else
  if r <=? 84 then ModeF else
  if r <=? 100 then ModeD else ModeQ.
(* %rsp, %rbp and %rip hold the frame and the program counter *)
Definition framereg (r : nat) : bool := (r =? 59) || (r =? 60) || (r =? 101).
(* machine registers that can hold values: every name except the pieces of sp and bp, the high bytes and none *)
Definition general (r : nat) : bool :=
  (1 <=? r) && (r <? 101) && negb ((17 <=? r) && (r <=? 20)) &&
  negb (existsb (Nat.eqb r) [7; 8; 27; 28; 43; 44; 59; 60]).
(* the machine registers instructions may name.  Byte division also names %ah, which is left out: see
   C26_highbyte_refuted. *)
Definition namable (r : nat) : bool := general r || framereg r.

(* ---------- programs ---------- *)

(* Operands, 6/asm.h struct Loc: a register, a memory operand with its address registers, or
   something without registers (literal, label). *)
Inductive loc :=
| Lreg (r : nat)
| Lmem (base : nat)
| Lmemi (base idx : nat)
| Lnone.

(* Instructions.  Omov is a plain copy (Imov or Imovs); every other instruction carries its line of
   6/insns.def: the 1-based positions of the operands it reads and writes, and the registers
   it reads and writes implicitly. *)
Inductive op := Omov | Oinsn (ul ur dl dr : list nat).
Record insn := mkInsn { uid : nat; iop : op; args : list loc }.
Record block := mkBlock { il : list insn; succs : list nat }.
(* nregs is one more than the largest register number in use; vmode the size of each register *)
Record prog := mkProg { blocks : list (option block); nregs : nat; vmode : nat -> mode }.

Definition op_ul o := match o with Omov => [1] | Oinsn ul _ _ _ => ul end.
Definition op_ur o := match o with Omov => [] | Oinsn _ ur _ _ => ur end.
Definition op_dl o := match o with Omov => [2] | Oinsn _ _ dl _ => dl end.
Definition op_dr o := match o with Omov => [] | Oinsn _ _ _ dr => dr end.

(* operand number k (1-based) is register r *)
Definition argreg (i : insn) (k r : nat) : Prop := nth_error (args i) (k - 1) = Some (Lreg r).

(* i reads register r: as an operand, implicitly, or to form an address *)
Definition reads (i : insn) (r : nat) : Prop :=
  (exists k, In k (op_ul (iop i)) /\ argreg i k r) \/
  In r (op_ur (iop i)) \/
  (exists a, In a (args i) /\ match a with Lmem b => r = b | Lmemi b x => r = b \/ r = x | _ => False end).
Definition writes (i : insn) (r : nat) : Prop :=
  (exists k, In k (op_dl (iop i)) /\ argreg i k r) \/ In r (op_dr (iop i)).

(* program points: (block, number of instructions already executed in it) *)
Definition point := (nat * nat)%type.
Definition blk (p : prog) (b : nat) : option block := nth b (blocks p) None.
Definition insn_at (p : prog) (pt : point) (i : insn) : Prop :=
  exists b, blk p (fst pt) = Some b /\ nth_error (il b) (snd pt) = Some i.

(* r is live at pt: some execution path from pt reads r before writing it *)
Inductive Live (p : prog) (r : nat) : point -> Prop :=
| live_read pt i : insn_at p pt i -> reads i r -> Live p r pt
| live_pass b k i : insn_at p (b, k) i -> ~ writes i r -> Live p r (b, S k) -> Live p r (b, k)
| live_edge b bb s : blk p b = Some bb -> In s (succs bb) -> blk p s <> None ->
    Live p r (s, 0) -> Live p r (b, length (il bb)).

(* i copies register src into register dst *)
Definition copies (i : insn) (src dst : nat) : Prop := iop i = Omov /\ args i = [Lreg src; Lreg dst].

(* how much of its storage a machine register name covers; writing a 32-bit register clears the upper half *)
Definition width (m : mode) : nat :=
  match m with ModeNone => 0 | ModeB => 1 | ModeW => 2 | ModeL | ModeQ => 3 | ModeF => 1 | ModeD => 2 end.
Definition same_storage (a b : nat) : Prop := a = b \/ (a < nphys /\ b < nphys /\ hw a = hw b).
(* writing d replaces all of r *)
Definition kills (d r : nat) : Prop :=
  d = r \/ (d < nphys /\ r < nphys /\ hw d = hw r /\ width (hwmode r) <= width (hwmode d)).
(* the value in r at pt is needed: some execution path from pt reads r before replacing it *)
Inductive Needed (p : prog) (r : nat) : point -> Prop :=
| need_read pt i : insn_at p pt i -> reads i r -> Needed p r pt
| need_pass b k i : insn_at p (b, k) i -> (forall d, writes i d -> ~ kills d r) -> Needed p r (b, S k) -> Needed p r (b, k)
| need_edge b bb s : blk p b = Some bb -> In s (succs bb) -> blk p s <> None ->
    Needed p r (s, 0) -> Needed p r (b, length (il bb)).

(* d and r hold different values that are needed at the same time: some instruction writes d
   while r is still needed, and does not merely copy r (or the machine register r is a piece of) into d *)
Definition Conflict (p : prog) (d r : nat) : Prop :=
  exists b k i, insn_at p (b, k) i /\ writes i d /\ Needed p r (b, S k) /\ d <> r /\
    ~ (exists src, copies i src d /\ same_storage src r).

(* Copies out of machine registers take all that is needed of the register: nothing wider than the copied name is needed
   after the copy.  And xmm0 is not needed after a copy out of %rsp, nor xmm1 after one out of %rbp. *)
Definition clean_copies (p : prog) : Prop :=
  forall b k i src dst r, insn_at p (b, k) i -> copies i src dst -> src < nphys -> r < nphys -> Needed p r (b, S k) ->
    (hw r = hw src -> width (hwmode r) <= width (hwmode src)) /\
    (src = 59 -> hw r <> Xmm 0) /\ (src = 60 -> hw r <> Xmm 1) /\ (src = 101 -> hw r <> Gpr 0).

(* ---------- well-formed programs ---------- *)

(* i mentions register r *)
Definition mentions (i : insn) (r : nat) : Prop :=
  (exists a, In a (args i) /\ match a with Lreg x => r = x | Lmem b => r = b | Lmemi b x => r = b \/ r = x | Lnone => False end) \/
  In r (op_ur (iop i)) \/ In r (op_dr (iop i)).
Definition in_prog (p : prog) (i : insn) : Prop := exists b bb, blk p b = Some bb /\ In i (il bb).
(* what instruction selection guarantees: registers are in range, machine registers are ones that may be
   named and have their own size, virtual registers have a size, a move has two operands, instructions are distinct, and
   successors exist *)
Record wf_prog (p : prog) : Prop := {
  wf_phys : nphys <= nregs p;
  wf_regs : forall i r, in_prog p i -> mentions i r -> r < nregs p /\ (r < nphys -> namable r = true);
  wf_hwmode : forall r, r < nphys -> vmode p r = hwmode r;
  wf_vmode : forall r, classof (vmode p r) <> Classbad;
  wf_mov : forall i, in_prog p i -> iop i = Omov -> exists a b, args i = [a; b];
  (* the frame registers are not copied to or from virtual registers *)
  wf_frame : forall i src dst, in_prog p i -> copies i src dst ->
     (framereg src = true -> dst < nphys) /\ (framereg dst = true -> src < nphys);
  wf_uid : forall b b' bb bb' k k' i i', blk p b = Some bb -> blk p b' = Some bb' ->
     nth_error (il bb) k = Some i -> nth_error (il bb') k' = Some i' -> uid i = uid i' -> b = b' /\ k = k';
  wf_succ : forall b bb s, blk p b = Some bb -> In s (succs bb) -> blk p s <> None
}.

(* block s reads r before writing it *)
Definition reads_first (p : prog) (s r : nat) : Prop :=
  exists k i, insn_at p (s, k) i /\ reads i r /\
    forall k' i', k' < k -> insn_at p (s, k') i' -> ~ writes i' r.
(* control goes forward into a block that needs a register *)
Definition forward_need (p : prog) : Prop :=
  exists b bb s r, blk p b = Some bb /\ In s (succs bb) /\ b < s /\ reads_first p s r.
