(* Model of mi/match.c: addrec, genfrontier, project, compile with its sharing of decision tree nodes, verifymatch and gendtree.
   Simplified: literals are numbers (floats are not modelled); the scrutinee's type accompanies the pattern, so that the
   number of constructors the code computes from an expression's type (nconstructors, :370-416) is known for each slot;
   the accept node of the k-th row of the initial list of rows has number k (in C the numbers are creation order; only
   equality of numbers is ever used). *)
From Verif Require Import Base Match_Spec.
Open Scope Z_scope.

Inductive res (A : Type) := Ok (x : A) | NullDeref | NoFuel | OrCaptures | Redundant (arm : nat) | Nonexhaustive.
Arguments Ok {A}. Arguments NullDeref {A}. Arguments NoFuel {A}. Arguments OrCaptures {A}. Arguments Redundant {A}. Arguments Nonexhaustive {A}.

(* the expressions built by utag :91, uvalue :101, tupelt :111, arrayelt :123 (array elements and bytes of a string),
   structmemb :149 (struct members, by position, and a string's len) and Oderef :516 *)
Inductive load := LVar | LTag (l : load) | LData (l : load) | LElt (l : load) (i : nat) | LDeref (l : load) | LLen (l : load) | LByte (l : load) (i : nat).
(* what such an expression reads from the scrutinee; None if there is nothing to read *)
Fixpoint loadv (l : load) (v : val) : option val :=
  match l with
  | LVar => Some v
  | LTag l => match loadv l v with Some (VUn tag _) => Some (VLit (Z.of_nat tag)) | _ => None end
  | LData l => match loadv l v with Some (VUn _ (Some w)) => Some w | _ => None end
  | LElt l i => match loadv l v with Some (VTup vs) => nth_error vs i | _ => None end
  | LDeref l => match loadv l v with Some (VPtr w) => Some w | _ => None end
  | LLen l => match loadv l v with Some (VStr bs) => Some (VLit (Z.of_nat (length bs))) | _ => None end
  | LByte l i => match loadv l v with Some (VStr bs) => option_map VLit (nth_error bs i) | _ => None end
  end.
Definition load_eq_dec (a b : load) : {a = b} + {a <> b}. Proof. decide equality; apply Nat.eq_dec. Defined.
Definition loadeq (a b : load) : bool := if load_eq_dec a b then true else false.    (* :194-219 *)

Definition path := list nat.                                                          (* :47-50 *)
Definition path_eq_dec (a b : path) : {a = b} + {a <> b}. Proof. decide equality; apply Nat.eq_dec. Defined.
Definition patheq (a b : path) : bool := if path_eq_dec a b then true else false.    (* :329-342 *)
(* type Slot, :56-60; spat is None for a gap or variable, Some k for the literal k.  styp is the type of the literal:
   first value, number of values, and nconstructors. *)
Record slot := mkslot { spath : path; spat : option Z; sload : load; styp : Z * Z * Z }.
(* type Frontier, :77-88 *)
Record frow := mkfrow { slots : list slot; caps : list (nat * load); hasor : bool }.
Definition addslot (s : slot) (f : frow) : frow := mkfrow (slots f ++ [s]) (caps f) (hasor f).
Definition addcap (c : nat * load) (f : frow) : frow := mkfrow (slots f) (caps f ++ [c]) (hasor f).

Definition U64 : Z * Z * Z := (0, 2 ^ 64, 2 ^ 64 - 1).
Definition BYTE : Z * Z * Z := (0, 256, 256).
Definition wildty : Z * Z * Z := (0, 0, 0).
(* the byte slots of a string literal, :504-510 *)
Fixpoint strslots (bs : list Z) (i : nat) (l : load) (pi : path) : list slot :=
  match bs with [] => [] | b :: bs => mkslot (pi ++ [S i]) (Some b) (LByte l i) BYTE :: strslots bs (S i) l pi end.

(* addrec, :453-558: the row being extended and the rows to insert right after it *)
Fixpoint addrec (p : pat) (t : ty) (l : load) (pi : path) (f : frow) : frow * list frow :=
  match p, t with
  | POr a b, t =>                                                        (* :465-473 *)
    let f0 := mkfrow (slots f) (caps f) true in
    let '(f1, e1) := addrec a t l pi f0 in
    let '(f2, e2) := addrec b t l pi f0 in
    (f1, e1 ++ f2 :: e2)
  | PGap, _ => (addslot (mkslot pi None l wildty) f, [])                 (* :474-476 *)
  | PVar x, _ => (addslot (mkslot pi None l wildty) (addcap (x, l) f), [])   (* :486-491 *)
  | PConst p, t => addrec p t l (pi ++ [O]) f                            (* :478-485 *)
  | PLit k, TSc lo n c => (addslot (mkslot pi (Some k) l (lo, n, c)) f, [])  (* :511-513 *)
  | PStr bs, _ =>                                                        (* :494-510 *)
    (mkfrow (slots f ++ mkslot (pi ++ [O]) (Some (Z.of_nat (length bs))) (LLen l) U64 :: strslots bs 0 l pi) (caps f) (hasor f), [])
  | PPtr p, TPtr t => addrec p t (LDeref l) (pi ++ [O]) f                (* :515-519 *)
  | PUn tag pl, TUn us =>                                                (* :520-527 *)
    let n := Z.of_nat (length us) in
    let f1 := addslot (mkslot (pi ++ [O]) (Some (Z.of_nat tag)) (LTag l) (0, n, n)) f in
    match pl, nth_error us tag with Some p, Some (Some u) => addrec p u (LData l) (pi ++ [1%nat]) f1 | _, _ => (f1, []) end
  | PTup ps, TTup ts =>                                                  (* :528-551 *)
    (fix go ps ts i f := match ps, ts with
      | p :: ps, t :: ts => let '(f1, e1) := addrec p t (LElt l i) (pi ++ [i]) f in
                            let '(f2, e2) := go ps ts (S i) f1 in (f2, e2 ++ e1)
      | _, _ => (f, []) end) ps ts O f
  | _, _ => (f, [])
  end.
Definition genfrontier (p : pat) (t : ty) : list frow :=                 (* :560-571 *)
  let '(f, e) := addrec p t LVar [O] (mkfrow [] [] false) in f :: e.

(* a row during compilation: its accept node and its remaining slots *)
Record row := mkrow { final : nat; rslots : list slot }.
Definition at_path (pi : path) (s : slot) : bool := patheq pi (spath s).
(* the slot at pi, the last one if there are several, as in the loops :595-601 and :767-771 *)
Definition find_at (pi : path) (ss : list slot) : option slot := find (at_path pi) (rev ss).
Definition project (k : Z) (pi : path) (r : row) : option row :=         (* :577-636 *)
  let out := mkrow (final r) (filter (fun s => negb (at_path pi s)) (rslots r)) in
  match find_at pi (rslots r) with
  | None => Some out
  | Some c => match spat c with None => Some out | Some j => if j =? k then Some out else None end
  end.
Definition iscons (s : slot) : bool := match spat s with Some _ => true | None => false end.
Definition zmem (k : Z) (l : list Z) : bool := existsb (Z.eqb k) l.
(* :711-741: the distinct literals at pi, top to bottom *)
Definition addlit (pi : path) (cs : list Z) (s : slot) : list Z :=
  match spat s with Some k => if at_path pi s && negb (zmem k cs) then cs ++ [k] else cs | None => cs end.
Definition cset (pi : path) (rows : list row) : list Z := fold_left (addlit pi) (flat_map rslots rows) [].
Fixpoint filter_map {A B} (f : A -> option B) (l : list A) : list B :=
  match l with [] => [] | x :: l => match f x with Some y => y :: filter_map f l | None => filter_map f l end end.
Definition is_default (pi : path) (r : row) : bool :=                    (* :764-775 *)
  match find_at pi (rslots r) with None => true | Some s => negb (iscons s) end.

(* type Dtree, mi/mi.h:40-64: accept nodes and tests *)
Inductive node := NAcc | NTest (l : load) (edges : list (Z * nat)) (any : option nat) (ncons : Z).
Record st := mkst { nodes : list node; refd : list nat }.                (* the nodes, and the accept nodes with refcnt > 0 *)
Fixpoint edges_eqb (a b : list (Z * nat)) : bool :=
  match a, b with [], [] => true | (k, i) :: a, (j, m) :: b => Nat.eqb i m && (k =? j) && edges_eqb a b | _, _ => false end.
(* dtreusable, :239-263, on one node: Some b is its answer, None the comparison with a missing default branch *)
Definition dtreusable (d : node) (l : load) (es : list (Z * nat)) (any : option nat) : option bool :=
  match d with
  | NAcc => Some false                                                   (* skipped, :789 *)
  | NTest l' es' any' _ =>
    if negb (loadeq l' l) then Some false else if negb (edges_eqb es' es) then Some false else
    match any', any with
    | None, None => Some true
    | Some a, Some b => Some (Nat.eqb a b)
    | _, _ => None
    end
  end.
Inductive found := Found (i : nat) | NotFound | Crash.
Fixpoint search (ns : list node) (i : nat) (l : load) (es : list (Z * nat)) (any : option nat) : found :=   (* :788-798 *)
  match ns with
  | [] => NotFound
  | d :: ns => match dtreusable d l es any with None => Crash | Some true => Found i | Some false => search ns (S i) l es any end
  end.
Definition mknode (s : st) (l : load) (es : list (Z * nat)) (any : option nat) (nc : Z) : res (nat * st) :=
  match search (nodes s) O l es any with
  | Crash => NullDeref
  | Found i => Ok (i, mkst (upd (nodes s) i (NTest l es any nc)) (refd s))   (* the fields are assigned again, :804-823 *)
  | NotFound => Ok (length (nodes s), mkst (nodes s ++ [NTest l es any nc]) (refd s))
  end.
(* compile, :664-828; the recursion is bounded by the number of slots (see Match_Proofs.compile_fuel) *)
Fixpoint compile (fuel : nat) (rows : list row) (s : st) : res (nat * st) :=
  match fuel with
  | O => NoFuel
  | S fuel =>
    match rows with
    | [] => NoFuel                                                       (* assert, :674; excluded by the callers *)
    | r0 :: _ =>
      match find iscons (rslots r0) with
      | None => Ok (final r0, mkst (nodes s) (final r0 :: refd s))       (* :678-692 *)
      | Some sl =>
        let pi := spath sl in
        let edges := fix go (cs : list Z) (s : st) : res (list (Z * nat) * st) :=
          match cs with
          | [] => Ok ([], s)
          | k :: cs => match filter_map (project k pi) rows with
            | [] => go cs s                                              (* :757 *)
            | rs => match compile fuel rs s with
              | Ok (d, s1) => match go cs s1 with Ok (es, s2) => Ok ((k, d) :: es, s2) | NullDeref => NullDeref | _ => NoFuel end
              | NullDeref => NullDeref | _ => NoFuel end
            end
          end in
        match edges (cset pi rows) s with
        | Ok (es, s1) =>
          match filter (is_default pi) rows with
          | [] => mknode s1 (sload sl) es None (snd (styp sl))
          | ds => match compile fuel ds s1 with
            | Ok (a, s2) => mknode s2 (sload sl) es (Some a) (snd (styp sl))
            | NullDeref => NullDeref | _ => NoFuel end
          end
        | NullDeref => NullDeref | _ => NoFuel
        end
      end
    end
  end.

(* verifymatch, :831-846; children have smaller numbers, so the node's number bounds the recursion *)
Fixpoint verifymatch (fuel : nat) (ns : list node) (i : nat) : bool :=
  match fuel with
  | O => false
  | S fuel => match nth_error ns i with
    | Some (NTest _ es any nc) =>
      ((Z.of_nat (length es) =? nc) || match any with Some _ => true | None => false end) && forallb (fun e => verifymatch fuel ns (snd e)) es
    | Some NAcc => true
    | None => false
    end
  end.

Definition nslots (rows : list row) : nat := length (flat_map rslots rows).
Fixpoint number {A} (i : nat) (l : list A) : list (nat * A) := match l with [] => [] | x :: l => (i, x) :: number (S i) l end.
(* the rows of all arms, each with its arm *)
Definition allrows (ps : list pat) (t : ty) : list (nat * frow) :=
  flat_map (fun ip => map (pair (fst ip)) (genfrontier (snd ip) t)) (number O ps).
(* :953-960: the alternatives of one arm capture the same variables (their types are not modelled) *)
Fixpoint caps_ok (rs : list (nat * frow)) : bool :=
  match rs with
  | (i, f) :: rs => match rs with
    | (j, g) :: _ => (negb (Nat.eqb i j) || (Nat.eqb (length (caps f)) (length (caps g)) && forallb (fun '(x, y) => Nat.eqb (fst x) (fst y)) (combine (caps f) (caps g)))) && caps_ok rs
    | [] => true end
  | [] => true
  end.
Record dag := mkdag { dnodes : list node; arms : list (nat * list (nat * load) * bool); root : nat }.
Definition gendtree (ps : list pat) (t : ty) : res dag :=                (* :925-1013 *)
  let fr := allrows ps t in
  if negb (caps_ok fr) then OrCaptures else
  let rows := map (fun x => mkrow (fst x) (slots (snd (snd x)))) (number O fr) in
  match compile (S (nslots rows)) rows (mkst (map (fun _ => NAcc) fr) []) with
  | Ok (d, s) =>
    match find (fun x => negb (existsb (Nat.eqb (fst x)) (refd s))) (number O fr) with
    | Some x => Redundant (fst (snd x))                                  (* :986-988 *)
    | None => if verifymatch (S d) (nodes s) d then Ok (mkdag (nodes s) (map (fun x => (fst x, caps (snd x), hasor (snd x))) fr) d) else Nonexhaustive
    end
  | NullDeref => NullDeref | _ => NoFuel
  end.

(* What the decision tree does with a value: reaches the accept node of a row, or no branch applies, or reads a part of the
   value that does not exist.  Node numbers decrease along branches. *)
Inductive outcome := Accept (row : nat) | Falls | BadLoad.
Fixpoint exec (fuel : nat) (ns : list node) (i : nat) (v : val) : outcome :=
  match fuel with
  | O => Falls
  | S fuel => match nth_error ns i with
    | Some NAcc => Accept i
    | Some (NTest l es any _) =>
      match loadv l v with
      | Some (VLit k) => match find (fun e => fst e =? k) es with
        | Some e => exec fuel ns (snd e) v
        | None => match any with Some a => exec fuel ns a v | None => Falls end end
      | _ => BadLoad
      end
    | None => Falls
    end
  end.
(* the arm the compiled match runs on v *)
Definition run_match (d : dag) (v : val) : outcome :=
  match exec (S (root d)) (dnodes d) (root d) v with
  | Accept r => match nth_error (arms d) r with Some (a, _, _) => Accept a | None => BadLoad end
  | o => o
  end.
