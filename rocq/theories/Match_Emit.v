(* Model of the code emitted for a decision tree: genmatchcode and genmatch, mi/match.c:1016-1075 and :1094-1130.
   Simplified: an arm's block is not modelled beyond its captures, so reaching its label ends the run; comparisons of a part of
   the scrutinee with a literal are single steps. *)
From Verif Require Import Base Match_Spec Match_Model.
Open Scope Z_scope.

(* the label of a test node, of an arm's block, and labels made by genlbl *)
Inductive lbl := LNode (i : nat) | LArm (a : nat) | LGen (n : nat).
Inductive instr := ILbl (l : lbl) | ICjmp (ld : load) (k : Z) (t f : lbl) | IJmp (l : lbl) | ICap (cs : list (nat * load)).
Definition lbl_eq_dec (a b : lbl) : {a = b} + {a <> b}. Proof. decide equality; apply Nat.eq_dec. Defined.

Section Gen.
Variable d : dag.
Definition armrow (i : nat) : nat * list (nat * load) * bool := nth i (arms d) (O, [], false).
(* dt->lbl: mkdtree's label argument for test nodes (:799), the arm's for accept nodes (:427) *)
Definition label_of (i : nat) : lbl := match nth_error (dnodes d) i with Some NAcc => LArm (fst (fst (armrow i))) | _ => LNode i end.
(* dt->cap of an accept node: only set for arms with alternatives, :975-978 *)
Definition node_caps (i : nat) : list (nat * load) :=
  match nth_error (dnodes d) i with Some NAcc => if snd (armrow i) then snd (fst (armrow i)) else [] | _ => [] end.
Record est := mkest { emitted : list nat; fresh : nat }.
Fixpoint gen (fuel i : nat) (s : est) : option (list instr * est) :=      (* genmatchcode, :1016-1075 *)
  match fuel with
  | O => None
  | S fuel =>
    if existsb (Nat.eqb i) (emitted s) then Some ([], s) else             (* :1024-1026 *)
    let s := mkest (i :: emitted s) (fresh s) in
    match nth_error (dnodes d) i with
    | Some NAcc => Some ([IJmp (label_of i)], s)                          (* :1029-1034 *)
    | Some (NTest ld es any _) =>
      let loop := fix loop (es : list (Z * nat)) (s : est) : option (list instr * est) :=
        match es with
        | [] => Some ([], s)
        | (k, c) :: es' =>
          let '(fail, emit, s) := match es', any with                     (* :1038-1044 *)
            | [], Some a => (label_of a, [], s)
            | _, _ => (LGen (fresh s), [ILbl (LGen (fresh s))], mkest (emitted s) (S (fresh s))) end in
          let '(next, stub, s) := match node_caps c with                  (* :1045-1049, :1057-1063 *)
            | [] => (label_of c, [], s)
            | cs => (LGen (fresh s), [ILbl (LGen (fresh s)); ICap cs; IJmp (label_of c)], mkest (emitted s) (S (fresh s))) end in
          match gen fuel c s with
          | Some (x, s) => match loop es' s with
            | Some (y, s) => Some (ICjmp ld k next fail :: stub ++ x ++ emit ++ y, s)
            | None => None end
          | None => None end
        end in
      match loop es s with
      | Some (x, s) => match any with
        | None => Some (ILbl (LNode i) :: x, s)
        | Some a => match gen fuel a s with                               (* :1069-1074 *)
          | Some (y, s) => Some (ILbl (LNode i) :: x ++ IJmp (label_of a) :: y, s)
          | None => None end
        end
      | None => None
      end
    | None => None
    end
  end.
Definition matchcode : option (list instr) := option_map fst (gen (S (root d)) (root d) (mkest [] O)).
End Gen.

(* Running it.  Done a env: control reached the block of arm a, after assigning env.  FellOff: control ran past the last
   instruction, into the block of the first arm, which genmatch emits next (:1112-1119). *)
Inductive result := Done (arm : nat) (env : list (nat * option val)) | FellOff | BadRead | Lost.
Fixpoint after (l : lbl) (c : list instr) : option (list instr) :=
  match c with [] => None | ILbl l' :: c => if lbl_eq_dec l l' then Some c else after l c | _ :: c => after l c end.
Definition evalcaps (v : val) (cs : list (nat * load)) : list (nat * option val) := map (fun c => (fst c, loadv (snd c) v)) cs.
Fixpoint runc (fuel : nat) (code rest : list instr) (v : val) (env : list (nat * option val)) : result :=
  match fuel with
  | O => Lost
  | S fuel =>
    let jump l := match l with LArm a => Done a env | _ => match after l code with Some r => runc fuel code r v env | None => Lost end end in
    match rest with
    | [] => FellOff
    | ILbl _ :: r => runc fuel code r v env
    | ICap cs :: r => runc fuel code r v (env ++ evalcaps v cs)
    | IJmp l :: _ => jump l
    | ICjmp ld k t f :: _ => match loadv ld v with Some (VLit j) => jump (if j =? k then t else f) | _ => BadRead end
    end
  end.
(* The variables an arm's block sees: an arm without alternatives assigns its captures at the start of its block
   (addcapture, :159-178 and :979-981), an arm with alternatives relies on what was assigned on the way. *)
Definition vars (d : dag) (a : nat) (v : val) (env : list (nat * option val)) : list (nat * option val) :=
  match find (fun x => Nat.eqb (fst (fst x)) a) (arms d) with Some (_, cs, false) => evalcaps v cs | _ => env end.
