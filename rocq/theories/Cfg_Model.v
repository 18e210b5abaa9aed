(* Model of the control-flow graph (mi/cfg.c), reaching definitions (mi/reaching.c) and the
   data-flow checks (mi/dfcheck.c).

   Bit sets (util/bitset.c) are represented by the natural number whose binary digits are
   the members; C01-C03 prove that the C bit sets behave as such sets. *)
From Verif Require Import Base.

Notation bset := N (only parsing).
Definition bshas (s : bset) (i : nat) : bool := N.testbit s (N.of_nat i).
Definition bsput (s : bset) (i : nat) : bset := N.setbit s (N.of_nat i).
Definition bsdel (s : bset) (i : nat) : bset := N.clearbit s (N.of_nat i).
Definition bsunion : bset -> bset -> bset := N.lor.
Definition bsdiff : bset -> bset -> bset := N.ldiff.
Definition bseq : bset -> bset -> bool := N.eqb.
(* the elements bsiter visits, in order, among 0..n-1 *)
Definition members (n : nat) (s : bset) : list nat := filter (bshas s) (seq 0 n).

(* Operators, parse/ops.def; all operators not distinguished by the modelled code are Oother. *)
Inductive op :=
| Ovar | Oundef | Odef | Oset | Oasn | Oaddeq | Osubeq | Omuleq | Odiveq | Omodeq
| Oboreq | Obandeq | Obxoreq | Obsleq | Obsreq | Oblit | Oclear | Oaddr | Oslice
| Ocall | Oret | Odead | Ojmp | Ocjmp | Oother (k : nat).

Definition lbl := nat.

(* Expression nodes, parse/parse.h struct Node (expr part).
   agg: the node's base type is struct, union, array, tuple or void (mi/dfcheck.c:32-33).
   Simplification: the label operands of Ojmp/Ocjmp are kept in jl instead of args; the
   condition of Ocjmp is args[0]. *)
Inductive expr := Ex (o : op) (nid did : nat) (agg : bool) (jl : list lbl) (args : list expr).
Definition eop e := let '(Ex o _ _ _ _ _) := e in o.
Definition enid e := let '(Ex _ n _ _ _ _) := e in n.
Definition edid e := let '(Ex _ _ d _ _ _) := e in d.
Definition eagg e := let '(Ex _ _ _ a _ _) := e in a.
Definition ejl e := let '(Ex _ _ _ _ l _) := e in l.
Definition eargs e := let '(Ex _ _ _ _ _ a) := e in a.

(* mi/mi.h:22-30 *)
Record bb := mkBb { nl : list expr; lbls : list lbl; pred : bset; succ : bset }.
Definition cfg := list (option bb).   (* None: deleted block (NULL) *)
Definition blk (g : cfg) (i : nat) : option bb := nth i g None.

(* ---------- mi/reaching.c ---------- *)

Definition isvar (e : expr) : bool := match eop e with Ovar => true | _ => false end.

(* assignee, mi/reaching.c:17-46 *)
Definition assignee (n : expr) : option expr :=
  match eop n with
  | Oundef | Odef | Oset | Oasn | Oaddeq | Osubeq | Omuleq | Odiveq | Omodeq
  | Oboreq | Obandeq | Obxoreq | Obsleq | Obsreq => hd_error (eargs n)
  | Oblit | Oclear =>
      match eargs n with
      | a :: _ => match eop a with
                  | Oaddr => match eargs a with
                             | x :: _ => if isvar x then Some x else None
                             | [] => None
                             end
                  | _ => None
                  end
      | [] => None
      end
  | _ => None
  end.

Definition stmts (g : cfg) : list expr := flat_map (fun b => match b with Some b => nl b | None => [] end) g.

(* collectdefs, mi/reaching.c:48-69: the list defs[did] *)
Definition defs (g : cfg) (did : nat) : list nat :=
  flat_map (fun s => match assignee s with
                     | Some n => if isvar n && (edid n =? did) then [enid s] else []
                     | None => []
                     end) (stmts g).

(* genkill, mi/reaching.c:71-89 *)
Definition genkill1 (df : nat -> list nat) (gk : bset * bset) (s : expr) : bset * bset :=
  match assignee s with
  | None => gk
  | Some n =>
      let '(gen, kill) := fold_left (fun gk d => (bsdel (fst gk) d, bsput (snd gk) d)) (df (edid n)) gk in
      (bsput gen (enid s), bsdel kill (enid s))
  end.
Definition genkill (df : nat -> list nat) (b : bb) : bset * bset := fold_left (genkill1 df) (nl b) (0%N, 0%N).

(* one iteration of the for loop, mi/reaching.c:131-151.  st = in, out, changed *)
Definition upd_block (g : cfg) (df : nat -> list nat) (st : list bset * list bset * bool) (i : nat) :=
  let '(ins, outs, changed) := st in
  match blk g i with
  | None => st
  | Some b =>
      let '(gen, kill) := genkill df b in
      let bbin := fold_left (fun acc j => bsunion acc (nth j outs 0%N)) (members (length g) (pred b)) 0%N in
      let bbout := bsunion (bsdiff bbin kill) gen in
      if negb (bseq (nth i outs 0%N) bbout) || negb (bseq (nth i ins 0%N) bbin)
      then (upd ins i bbin, upd outs i bbout, true)
      else st
  end.

Definition pass (g : cfg) (df : nat -> list nat) (ins outs : list bset) :=
  fold_left (upd_block g df) (seq 0 (length g)) (ins, outs, false).

(* the do ... while loop, mi/reaching.c:129-152; None: fuel exhausted *)
Fixpoint iterate (fuel : nat) (g : cfg) (df : nat -> list nat) (ins outs : list bset) : option (list bset * list bset) :=
  match fuel with
  | O => None
  | S fuel =>
      let '(ins', outs', changed) := pass g df ins outs in
      if changed then iterate fuel g df ins' outs' else Some (ins', outs')
  end.

(* reaching, mi/reaching.c:100-169 *)
Definition reaching (fuel : nat) (g : cfg) : option (list bset * list bset) :=
  iterate fuel g (defs g) (repeat 0%N (length g)) (repeat 0%N (length g)).

(* ---------- mi/dfcheck.c ---------- *)

(* nodes[nid]'s operator (mi/dfcheck.c:39).  Simplification: looked up among the statements
   of the graph instead of the global node table. *)
Definition nodeop (g : cfg) (nid : nat) : op :=
  match find (fun s => enid s =? nid) (stmts g) with Some s => eop s | None => Oother 0 end.
Definition isundef (o : op) : bool := match o with Oundef => true | _ => false end.
Definition isaddr (o : op) : bool := match o with Oaddr => true | _ => false end.

(* checkundef, mi/dfcheck.c:17-67; false = fatal *)
Section Check.
Context (isconst : nat -> bool) (df : nat -> list nat) (nop : nat -> op) (reach kill : bset).
Fixpoint checkundef (e : expr) : bool :=
  match e with
  | Ex o _ did agg _ args =>
      match o with
      | Ovar =>
          if isconst did then true
          else forallb (fun d => agg || bshas kill d || negb (bshas reach d) || negb (isundef (nop d))) (df did)
      | Oset | Oasn | Oblit => match args with _ :: b :: _ => checkundef b | _ => true end
      | Oaddr | Oslice => match args with [] => true | _ :: rest => forallb checkundef rest end
      | Ocall => match args with
                 | [] => true
                 | _ :: rest => forallb (fun a => if isaddr (eop a) then true else checkundef a) rest
                 end
      | _ => forallb checkundef args
      end
  end.
End Check.

(* checkreach, mi/dfcheck.c:69-101: the inner loop over the statements of one block *)
Fixpoint checkblock (isconst : nat -> bool) (df : nat -> list nat) (nop : nat -> op) (reach kill : bset) (ss : list expr) : bool :=
  match ss with
  | [] => true
  | n :: ss =>
      if isundef (eop n) then checkblock isconst df nop (bsput reach (enid n)) kill ss
      else
        let kill := match assignee n with
                    | Some m => fold_left bsput (df (edid m)) kill
                    | None => kill
                    end in
        checkundef isconst df nop reach kill n && checkblock isconst df nop reach kill ss
  end.

Definition checkreach (isconst : nat -> bool) (g : cfg) (ins : list bset) : bool :=
  forallb (fun i => match blk g i with
                    | None => true
                    | Some b => checkblock isconst (defs g) (nodeop g) (nth i ins 0%N) 0%N (nl b)
                    end) (seq 0 (length g)).

(* checkpredret, mi/dfcheck.c:103-121.  None: fuel exhausted (unbounded recursion) or a
   deleted block dereferenced; Some false: fatal *)
Fixpoint checkpredret (fuel : nat) (g : cfg) (b : bb) : option bool :=
  match fuel with
  | O => None
  | S fuel =>
      fold_left (fun acc i =>
        match acc with
        | Some true =>
            match blk g i with
            | None => None
            | Some p =>
                match rev (nl p) with
                | [] => checkpredret fuel g p
                | l :: _ => match eop l with Oret | Odead => Some true | _ => Some false end
                end
            end
        | r => r
        end) (members (length g) (pred b)) (Some true)
  end.

(* ---------- mi/cfg.c ---------- *)

(* An element of the flattened statement list *)
Inductive item := IDecl | ILbl (l : lbl) | IEx (e : expr).

(* isnonretcall, mi/cfg.c:47-56 *)
Definition isnonretcall (noret : nat -> bool) (e : expr) : bool :=
  match eargs e with fn :: _ => isvar fn && noret (edid fn) | [] => false end.

(* addnode's result, mi/cfg.c:58-80 *)
Definition endsblock (noret : nat -> bool) (e : expr) : bool :=
  match eop e with
  | Ojmp | Ocjmp | Oret | Odead => true
  | Ocall => isnonretcall noret e
  | _ => false
  end.

(* mkexpr(loc, Ojmp, mklbl(...)), mi/cfg.c:104; its node id plays no role *)
Definition mkjmp (l : lbl) : expr := Ex Ojmp 0 0 false [l] [].

(* the condition of addlabel, mi/cfg.c:102-103, on the previous element *)
Definition fallsinto (prev : option item) : bool :=
  match prev with
  | None | Some IDecl => false
  | Some (ILbl _) => true
  | Some (IEx e) => match eop e with Ocjmp | Ojmp => false | _ => true end
  end.

(* The block-building loop of mkcfg with addnode, addlabel and mkbb (mi/cfg.c:18-29, 58-110,
   213-228).  The current block is always the last one made, so the loop is written as
   producing the finished blocks (statements, labels) in order. *)
Fixpoint build (noret : nat -> bool) (prev : option item) (cur : list expr) (ls : list lbl) (p : list item)
  : list (list expr * list lbl) :=
  match p with
  | [] => [(cur, ls)]
  | IDecl :: p => build noret (Some IDecl) cur ls p
  | ILbl l :: p =>
      let cur := if fallsinto prev then cur ++ [mkjmp l] else cur in
      match cur with
      | [] => build noret (Some (ILbl l)) [] (ls ++ [l]) p
      | _ => (cur, ls) :: build noret (Some (ILbl l)) [] [l] p
      end
  | IEx e :: p =>
      let cur := cur ++ [e] in
      if endsblock noret e then (cur, ls) :: build noret (Some (IEx e)) [] [] p
      else build noret (Some (IEx e)) cur ls p
  end.

(* htget(cfg->lblmap, l): the block that carries the label (the last one to get it) *)
Fixpoint lookup (l : lbl) (k : nat) (bs : list (list expr * list lbl)) : option nat :=
  match bs with
  | [] => None
  | (_, ls) :: bs =>
      match lookup l (S k) bs with
      | Some j => Some j
      | None => if existsb (Nat.eqb l) ls then Some k else None
      end
  end.

(* Targets of a jump node (mi/cfg.c:240-273); None: "No bb with label".
   post is the id of the end block, reached by Oret through the label .Lret<n>. *)
Fixpoint lookups (ls : list lbl) (bs : list (list expr * list lbl)) : option (list nat) :=
  match ls with
  | [] => Some []
  | l :: ls => match lookup l 1 bs, lookups ls bs with Some j, Some js => Some (j :: js) | _, _ => None end
  end.
Definition targets (bs : list (list expr * list lbl)) (post : nat) (e : expr) : option (list nat) :=
  match eop e with
  | Ojmp | Ocjmp => lookups (ejl e) bs
  | Oret => Some [post]
  | _ => Some []
  end.
Fixpoint alltargets (bs : list (list expr * list lbl)) (post : nat) (es : list expr) : option (list nat) :=
  match es with
  | [] => Some []
  | e :: es => match targets bs post e, alltargets bs post es with Some a, Some b => Some (a ++ b) | _, _ => None end
  end.

(* all edges (from, to) put by mi/cfg.c:235-273 *)
Fixpoint jumpedges (all : list (list expr * list lbl)) (post k : nat) (bs : list (list expr * list lbl)) : option (list (nat * nat)) :=
  match bs with
  | [] => Some []
  | (es, _) :: bs =>
      match alltargets all post es, jumpedges all post (S k) bs with
      | Some ts, Some r => Some (map (fun t => (k, t)) ts ++ r)
      | _, _ => None
      end
  end.

Definition mkset (l : list nat) : bset := fold_left bsput l 0%N.
Definition mkgraph (bs : list (list expr * list lbl)) (es : list (nat * nat)) : cfg :=
  map (fun kb : nat * (list expr * list lbl) =>
         let '(k, (e, l)) := kb in
         Some (mkBb e l (mkset (map fst (filter (fun x => snd x =? k) es)))
                        (mkset (map snd (filter (fun x => fst x =? k) es)))))
      (combine (seq 0 (length bs)) bs).

(* mkcfg up to trim, mi/cfg.c:198-273.  Block 0 is pre (start), the last block is post (end).
   The label .Lret<n> of post is not in the program, so post carries none here. *)
Definition mkcfg0 (noret : nat -> bool) (p : list item) : option cfg :=
  let bs := build noret None [] [] p in
  let post := S (length bs) in
  match jumpedges bs post 1 bs with
  | None => None
  | Some js => Some (mkgraph (([], []) :: bs ++ [([], [])]) ((0, 1) :: (length bs, post) :: js))
  end.

Definition set_blk (g : cfg) (i : nat) (b : option bb) : cfg := upd g i b.
Definition map_pred (g : cfg) (i : nat) (f : bset -> bset) : cfg :=
  match blk g i with Some b => set_blk g i (Some (mkBb (nl b) (lbls b) (f (pred b)) (succ b))) | None => g end.
Definition map_succ (g : cfg) (i : nat) (f : bset -> bset) : cfg :=
  match blk g i with Some b => set_blk g i (Some (mkBb (nl b) (lbls b) (pred b) (f (succ b)))) | None => g end.

(* noexit, mi/cfg.c:132-139 *)
Definition noexit (g : cfg) (i : nat) : cfg :=
  match blk g i with
  | None => g
  | Some b =>
      let g := fold_left (fun g j => map_pred g j (fun s => bsdel s i)) (members (length g) (succ b)) g in
      map_succ g i (fun _ => 0%N)
  end.

(* trimdead, mi/cfg.c:141-173: how many nodes to keep, and whether the block has no exit *)
Fixpoint trimpos (noret : nat -> bool) (es : list expr) : nat * bool :=
  match es with
  | [] => (0, false)
  | e :: es =>
      match eop e with
      | Ojmp | Ocjmp | Oret => (1, false)
      | Odead => (1, true)
      | Ocall => if isnonretcall noret e then (1, true) else let '(k, d) := trimpos noret es in (S k, d)
      | _ => let '(k, d) := trimpos noret es in (S k, d)
      end
  end.
Definition trimdead (noret : nat -> bool) (g : cfg) (i : nat) : cfg :=
  match blk g i with
  | None => g
  | Some b =>
      let '(k, dead) := trimpos noret (nl b) in
      let g := if dead then noexit g i else g in
      match blk g i with
      | Some b => set_blk g i (Some (mkBb (firstn k (nl b)) (lbls b) (pred b) (succ b)))
      | None => g
      end
  end.

(* delete, mi/cfg.c:112-130; the relabelling of lines 126-127 only affects the label table,
   which is not used after this point *)
Definition delete (g : cfg) (i : nat) : cfg :=
  match blk g i with
  | None => g
  | Some b =>
      let n := length g in
      let g := fold_left (fun g j => map_succ g j (fun s => bsdel (bsunion s (succ b)) i)) (members n (pred b)) g in
      let g := fold_left (fun g j => map_pred g j (fun s => bsdel (bsunion s (pred b)) i)) (members n (succ b)) g in
      set_blk g i None
  end.

(* one iteration of the for loop of trim, mi/cfg.c:185-194 *)
Definition trim1 (noret : nat -> bool) (post : nat) (st : cfg * bool) (i : nat) : cfg * bool :=
  let '(g, deleted) := st in
  if (i =? 0) || (i =? post) then st
  else
    let g := trimdead noret g i in
    match blk g i with
    | Some b => if bseq (pred b) 0%N then (delete g i, true) else (g, deleted)
    | None => (g, deleted)
    end.
(* trim, mi/cfg.c:175-196 *)
Fixpoint trim (fuel : nat) (noret : nat -> bool) (post : nat) (g : cfg) : option cfg :=
  match fuel with
  | O => None
  | S fuel =>
      let '(g, deleted) := fold_left (trim1 noret post) (seq 0 (length g)) (g, false) in
      if deleted then trim fuel noret post g else Some g
  end.

Inductive outcome := Accept | Reject | Die | Diverge.

(* mkcfg followed by checkret (mi/dfcheck.c:123-134), for a function with a non-void return type *)
Definition mkcfg (fuel : nat) (noret : nat -> bool) (p : list item) : option (option cfg) :=
  match mkcfg0 noret p with
  | None => Some None
  | Some g => match trim fuel noret (length g - 1) g with Some g => Some (Some g) | None => None end
  end.
Definition checkret (fuel : nat) (noret : nat -> bool) (p : list item) : outcome :=
  match mkcfg fuel noret p with
  | None => Diverge
  | Some None => Die
  | Some (Some g) =>
      match blk g (length g - 1) with
      | None => Die
      | Some e => match checkpredret fuel g e with
                  | None => Diverge
                  | Some true => Accept
                  | Some false => Reject
                  end
      end
  end.
