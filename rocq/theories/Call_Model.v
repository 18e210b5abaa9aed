(* Model of argument passing and of the stack frame in the amd64 back end: classify
   (6/typeinfo.c), gencall, placearg, sufficientregs, addarglocs, retrievearg, movearg,
   handlesmallstructargs, selfunc (6/isel.c), forcelocal (6/simp.c), addspill (6/ra.c). *)
From Verif Require Import Base CUtil_Model Layout_Model.
Local Open Scope N_scope.

(* isenum, parse/type.c:53-78 *)
Definition isenum (cs : list (string * option ty)) : bool :=
  forallb (fun c => match snd c with Some _ => false | None => true end) cs.
(* isstacktype, parse/type.c:44-51, with the stack column of parse/types.def *)
Definition isstacktype (t : ty) : bool :=
  match tybase t with
  | Tunion cs => negb (isenum cs)
  | Tfunc | Tslice _ | Tarray _ _ | Ttuple _ | Tstruct _ => true
  | _ => false
  end.
(* isaggregate, 6/typeinfo.c:533-539 *)
Definition isaggregate (t : ty) : bool :=
  match tybase t with
  | Tstruct _ | Tarray _ _ | Ttuple _ => true
  | Tunion cs => negb (isenum cs)
  | _ => false
  end.

Inductive passin := PassInNoPref | PassInSSE | PassInInt | PassInMemory.   (* 6/asm.h:48-53 *)
Definition passin_eqb (a b : passin) : bool :=
  match a, b with
  | PassInNoPref, PassInNoPref | PassInSSE, PassInSSE | PassInInt, PassInInt | PassInMemory, PassInMemory => true
  | _, _ => false
  end.

(* join_classification, 6/typeinfo.c:428-437 *)
Definition join (cur new : passin) : passin :=
  if passin_eqb cur PassInNoPref then new
  else if passin_eqb cur PassInInt || passin_eqb new PassInInt then PassInInt
  else if negb (passin_eqb cur new) then PassInMemory
  else cur.

(* join_classification(&p[off / 8], new): off < 16 here, since off + sz <= 16 and sz > 0 for every
   type that is joined at its own offset *)
Definition joinat (off : N) (new : passin) (p : passin * passin) : passin * passin :=
  if off / 8 =? 0 then (join (fst p) new, snd p) else (fst p, join (snd p) new).

(* classify_recursive, 6/typeinfo.c:439-530: p[0], p[1] and *total_offset *)
Fixpoint classify_rec (t : ty) (s : (passin * passin) * N) : (passin * passin) * N :=
  let '(p, off) := s in
  if 16 <? add64 off (tysize t) then ((PassInMemory, PassInMemory), off)
  else
    let fin := align (add64 off (tysize t)) (tyalign t) in
    match t with
    | Tprim Pvoid => (p, fin)
    | Tprim (Pflt32 | Pflt64) => (joinat off PassInSSE p, fin)
    | Tprim Pvalist => (joinat off PassInMemory p, fin)
    | Tprim _ | Tptr _ => (joinat off PassInInt p, fin)
    | Tslice _ => ((join (fst p) PassInMemory, join (snd p) PassInMemory), fin)
    | Tname d => (fst (classify_rec d (p, off)), fin)
    | Tcode | Tfunc => (joinat off PassInMemory p, fin)
    | Ttuple ts =>
        (fst ((fix go (l : list ty) s := match l with
               | [] => s
               | x :: l => go l (classify_rec x (fst s, alignto (snd s) x)) end) ts (p, off)), fin)
    | Tstruct ms =>
        (fst ((fix go (l : list (string * ty)) s := match l with
               | [] => s
               | (_, x) :: l => go l (classify_rec x (fst s, alignto (snd s) x)) end) ms (p, off)), fin)
    | Tunion cs => (joinat off (if isenum cs then PassInInt else PassInMemory) p, fin)
    | Tarray None _ => (p, fin)
    | Tarray (Some n) e => (fst (N.iter n (classify_rec e) (p, off)), fin)
    end.

Inductive argtype := ArgVoid | ArgReg | ArgBig | ArgAggrI | ArgAggrF | ArgAggrII | ArgAggrFI | ArgAggrIF | ArgAggrFF.

(* classify, 6/typeinfo.c:541-592; None: die("Impossible return from classify_recursive") *)
Definition classify (t : ty) : option argtype :=
  let sz := tysize t in
  match tybase t with
  | Tprim Pvoid => Some ArgVoid
  | _ =>
    if isstacktype t then
      if isaggregate t && (sz <=? 16) then
        let '(p0, p1) := fst (classify_rec t ((PassInNoPref, PassInNoPref), 0)) in
        if passin_eqb p0 PassInMemory || passin_eqb p1 PassInMemory then Some ArgBig
        else match p0 with
        | PassInInt => if sz <=? 8 then Some ArgAggrI
                       else match p1 with PassInInt => Some ArgAggrII | PassInSSE => Some ArgAggrIF | _ => None end
        | PassInSSE => if sz <=? 8 then Some ArgAggrF
                       else match p1 with PassInInt => Some ArgAggrFI | PassInSSE => Some ArgAggrFF | _ => None end
        | _ => None
        end
      else Some ArgBig
    else Some ArgReg
  end.

(* tymode, 6/isel.c:66-87: whether the mode is a float or an integer mode *)
Definition isfloatmode (t : ty) : bool :=
  match tybase t with Tprim (Pflt32 | Pflt64) => true | _ => false end.
Definition isintmode (t : ty) : bool :=
  negb (isfloatmode t) &&
  (isstacktype t || (tysize t =? 1) || (tysize t =? 2) || (tysize t =? 4) || (tysize t =? 8)).

Definition Nfloatregargs : nat := 8.   (* 6/isel.c:23 *)
Definition Nintregargs : nat := 6.     (* 6/isel.c:24 *)

(* sufficientregs, 6/isel.c:611-626; the classes the table leaves out are {0, 0} *)
Definition needed (a : argtype) : nat * nat :=
  match a with
  | ArgAggrI => (1, 0)
  | ArgAggrFI => (1, 1)
  | ArgAggrIF => (1, 1)
  | ArgAggrII => (2, 0)
  | ArgAggrFF => (0, 2)
  | _ => (0, 0)
  end%nat.
Definition sufficientregs (a : argtype) (nfloats nints : nat) : bool :=
  (Nat.leb (snd (needed a) + nfloats) Nfloatregargs && Nat.leb (fst (needed a) + nints) Nintregargs)%bool.

(* where a piece of an argument travels: the k-th integer or float argument register, or n bytes
   of stack at an offset from the stack pointer of the caller *)
Inductive place := Pint_reg (k : nat) | Pflt_reg (k : nat) | Pstack (off n : N).

Record st := St { nfl : nat; nin : nat; aoff : N }.

(* intargregs[*nints] and floatargregs[*nfloats]: None when the index is outside the table *)
Definition intreg (s : st) : option (place * st) :=
  if Nat.ltb (nin s) Nintregargs then Some (Pint_reg (nin s), St (nfl s) (S (nin s)) (aoff s)) else None.
Definition fltreg (s : st) : option (place * st) :=
  if Nat.ltb (nfl s) Nfloatregargs then Some (Pflt_reg (nfl s), St (S (nfl s)) (nin s) (aoff s)) else None.
Definition onstack (t : ty) (s : st) : place * st :=
  (Pstack (aoff s) (tysize t), St (nfl s) (nin s) (add64 (aoff s) (tysize t))).

(* placearg with PassInNoPref, 6/isel.c:549-609 *)
Definition placearg (t : ty) (vararg : bool) (s : st) : option (place * st) :=
  if isstacktype t then Some (onstack t s)
  else if negb vararg && isfloatmode t && Nat.ltb (nfl s) Nfloatregargs then fltreg s
  else if negb vararg && isintmode t && Nat.ltb (nin s) Nintregargs then intreg s
  else Some (onstack t s).

Definition two (a b : st -> option (place * st)) (s : st) : option (list place * st) :=
  match a s with
  | Some (p, s) => match b s with Some (q, s) => Some ([p; q], s) | None => None end
  | None => None
  end.
Definition one (r : option (place * st)) : option (list place * st) :=
  match r with Some (p, s) => Some ([p], s) | None => None end.

(* the class used for argument i: gencall 6/isel.c:748-760, addarglocs 6/isel.c:1269-1282 *)
Definition argclass (t : ty) (vararg : bool) (s : st) : option argtype :=
  match (if vararg then Some ArgBig else classify t) with
  | Some a => Some (if sufficientregs a (nfl s) (nin s) then a else ArgBig)
  | None => None
  end.
Definition argalign (t : ty) (vararg : bool) (s : st) : st :=
  let o := alignto (aoff s) t in
  St (nfl s) (nin s) (if vararg then o else align o 8).

(* gencall, the placement loop: 6/isel.c:744-793.  For each argument, the places of its pieces. *)
Fixpoint gencall (vasplit i : nat) (ts : list ty) (s : st) : option (list (list place) * st) :=
  match ts with
  | [] => Some ([], s)
  | t :: ts =>
      let vararg := Nat.leb vasplit i in
      let s := argalign t vararg s in
      match argclass t vararg s with
      | None => None
      | Some a =>
        match (match a with
               | ArgVoid => Some ([], s)
               | ArgReg | ArgBig => one (placearg t vararg s)
               | ArgAggrI => one (intreg s)
               | ArgAggrF => one (fltreg s)
               | ArgAggrII => two intreg intreg s
               | ArgAggrIF => two intreg fltreg s
               | ArgAggrFI => two fltreg intreg s
               | ArgAggrFF => two fltreg fltreg s
               end) with
        | None => None
        | Some (ps, s) =>
            match gencall vasplit (S i) ts s with
            | Some (r, s) => Some (ps :: r, s)
            | None => None
            end
        end
      end
  end.

(* gencall, the size of the area reserved for arguments: 6/isel.c:728-733 *)
Fixpoint argsz (ts : list ty) (sz : N) : N :=
  match ts with
  | [] => align sz 16
  | t :: ts => argsz ts (align (add64 (align sz (N.min (tysize t) Ptrsz)) (tysize t)) 8)
  end.

(* retrievearg, 6/isel.c:1228-1249: None in the inner option: no place is recorded *)
Definition retrievearg (t : ty) (vararg : bool) (s : st) : option (list place * st) :=
  if isstacktype t then one (Some (onstack t s))
  else if negb vararg && isfloatmode t && Nat.ltb (nfl s) Nfloatregargs then one (fltreg s)
  else if negb vararg && isintmode t && Nat.ltb (nin s) Nintregargs then one (intreg s)
  else match tybase t with
       | Tprim Pvoid => Some ([], s)
       | _ => one (Some (onstack t s))
       end.

(* addarglocs, 6/isel.c:1251-1322: for each argument, the places its pieces are taken from *)
Fixpoint addarglocs (vasplit i : nat) (ts : list ty) (s : st) : option (list (list place) * st) :=
  match ts with
  | [] => Some ([], s)
  | t :: ts =>
      let vararg := Nat.leb vasplit i in
      let s := argalign t vararg s in
      match argclass t vararg s with
      | None => None
      | Some a =>
        match (match a with
               | ArgVoid => Some ([], s)
               | ArgReg | ArgBig => retrievearg t vararg s
               | ArgAggrI => one (intreg s)
               | ArgAggrF => one (fltreg s)
               | ArgAggrII => two intreg intreg s
               | ArgAggrIF => two intreg fltreg s
               | ArgAggrFI => two fltreg intreg s
               | ArgAggrFF => two fltreg fltreg s
               end) with
        | None => None
        | Some (ps, s) =>
            match addarglocs vasplit (S i) ts s with
            | Some (r, s) => Some (ps :: r, s)
            | None => None
            end
        end
      end
  end.

(* --- the stack frame --- *)
(* forcelocal, 6/simp.c:168-179: the offsets below the frame pointer of the locals of these types *)
Fixpoint locals (stksz : N) (ts : list ty) : list N * N :=
  match ts with
  | [] => ([], stksz)
  | t :: ts =>
      let stksz := align (add64 stksz (tysize t)) (N.min (tysize t) Ptrsz) in
      let '(r, z) := locals stksz ts in (stksz :: r, z)
  end.
(* handlesmallstructargs, 6/isel.c:1443-1491: 8 or 16 bytes for each argument passed in registers *)
Fixpoint smallargs (stksz : N) (l : list bool) : list N * N :=
  match l with
  | [] => ([], stksz)
  | two :: l =>
      let n := if two then 16 else 8 in
      let stksz := align (add64 stksz n) (N.min n Ptrsz) in
      let '(r, z) := smallargs stksz l in (stksz :: r, z)
  end.
(* addspill, 6/ra.c:1330-1341; the argument is modesize of the spilled register: 1, 2, 4 or 8 *)
Fixpoint spills (stksz : N) (l : list N) : list N * N :=
  match l with
  | [] => ([], stksz)
  | n :: l =>
      let stksz := align (add64 stksz n) n in
      let '(r, z) := spills stksz l in (stksz :: r, z)
  end.
(* simpfn 6/simp.c:1530 and selfunc 6/isel.c:1517-1544: the slots of a function's frame and the
   amount subtracted from the stack pointer *)
Definition frame (ts : list ty) (small : list bool) (sp : list N) : list N * list N * list N * N :=
  let '(a, z) := locals 0 ts in
  let '(b, z) := smallargs (align z 8) small in
  let '(c, z) := spills z sp in
  (a, b, c, align z 16).
