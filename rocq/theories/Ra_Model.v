(* Model of the register allocator, 6/ra.c: liveness, interference graph, coalescing, colouring.

   Representation: bit sets (util/bitset.c) as natural numbers (see C01-C03); arrays indexed
   by register number as lists of length nreg; the bit matrix gbits as one bit set per row
   (bit nreg*v+u of the C array is bit u of row v); C arrays used as lists keep their
   order: lappend adds at the end, lpop takes the last element.  A Loc that is a register is its
   number; locmap[r]->mode is vmode p r; locmap[r]->list is place.  A move instruction is its uid with
   its two register operands.  None stands for a failed assertion or die(). *)
From Verif Require Import Base Ra_Spec.
From Verif Require Cfg_Model.

Notation bset := N (only parsing).
Notation bshas := Cfg_Model.bshas.
Notation bsput := Cfg_Model.bsput.
Notation bsdel := Cfg_Model.bsdel.
Notation bsunion := Cfg_Model.bsunion.
Notation bsdiff := Cfg_Model.bsdiff.
Notation bseq := Cfg_Model.bseq.
Notation members := Cfg_Model.members.

(* ---------- tables ---------- *)

(* 6/regs.def: the numbers the enum gives to the registers the code names *)
Definition Nreg : nat := 102.
Definition Rspl : nat := 7.
Definition Rbpl : nat := 8.
Definition Rah : nat := 17.
Definition Rrax : nat := 53.
Definition Resp : nat := 43.
Definition Rebp : nat := 44.
Definition Rrsp : nat := 59.
Definition Rrbp : nat := 60.
Definition Rrip : nat := 101.
Definition Rch : nat := 18.
Definition Rdh : nat := 19.
Definition Rbh : nat := 20.
Definition Rxmm0f : nat := 69.
Definition Rxmm0d : nat := 85.
Definition Rr12 : nat := 65.
Definition regmodes : list mode :=
  [ModeB; ModeB; ModeB; ModeB; ModeB; ModeB; ModeB; ModeB; ModeB; ModeB; ModeB; ModeB; ModeB;
   ModeB; ModeB; ModeB; ModeB; ModeB; ModeB; ModeB; ModeB; ModeW; ModeW; ModeW; ModeW; ModeW;
   ModeW; ModeW; ModeW; ModeW; ModeW; ModeW; ModeW; ModeW; ModeW; ModeW; ModeW; ModeL; ModeL;
   ModeL; ModeL; ModeL; ModeL; ModeL; ModeL; ModeL; ModeL; ModeL; ModeL; ModeL; ModeL; ModeL;
   ModeL; ModeQ; ModeQ; ModeQ; ModeQ; ModeQ; ModeQ; ModeQ; ModeQ; ModeQ; ModeQ; ModeQ; ModeQ;
   ModeQ; ModeQ; ModeQ; ModeQ; ModeF; ModeF; ModeF; ModeF; ModeF; ModeF; ModeF; ModeF; ModeF;
   ModeF; ModeF; ModeF; ModeF; ModeF; ModeF; ModeF; ModeD; ModeD; ModeD; ModeD; ModeD; ModeD;
   ModeD; ModeD; ModeD; ModeD; ModeD; ModeD; ModeD; ModeD; ModeD; ModeD; ModeQ].
Definition regmap_tab : list (list nat) :=
  [[0; 1; 21; 37; 53; 0; 0];
   [0; 2; 22; 38; 54; 0; 0];
   [0; 3; 23; 39; 55; 0; 0];
   [0; 4; 24; 40; 56; 0; 0];
   [0; 5; 25; 41; 57; 0; 0];
   [0; 6; 26; 42; 58; 0; 0];
   [0; 9; 29; 45; 61; 0; 0];
   [0; 10; 30; 46; 62; 0; 0];
   [0; 11; 31; 47; 63; 0; 0];
   [0; 12; 32; 48; 64; 0; 0];
   [0; 13; 33; 49; 65; 0; 0];
   [0; 14; 34; 50; 66; 0; 0];
   [0; 15; 35; 51; 67; 0; 0];
   [0; 16; 36; 52; 68; 0; 0];
   [0; 0; 0; 0; 0; 69; 85];
   [0; 0; 0; 0; 0; 70; 86];
   [0; 0; 0; 0; 0; 71; 87];
   [0; 0; 0; 0; 0; 72; 88];
   [0; 0; 0; 0; 0; 73; 89];
   [0; 0; 0; 0; 0; 74; 90];
   [0; 0; 0; 0; 0; 75; 91];
   [0; 0; 0; 0; 0; 76; 92];
   [0; 0; 0; 0; 0; 77; 93];
   [0; 0; 0; 0; 0; 78; 94];
   [0; 0; 0; 0; 0; 79; 95];
   [0; 0; 0; 0; 0; 80; 96];
   [0; 0; 0; 0; 0; 81; 97];
   [0; 0; 0; 0; 0; 82; 98];
   [0; 0; 0; 0; 0; 83; 99];
   [0; 0; 0; 0; 0; 84; 100]].
Definition colourmap_tab : list nat :=
  [0; 0; 1; 2; 3; 4; 5; 0; 0; 6; 7; 8; 9; 10; 11; 12; 13; 0; 0; 0; 0; 0; 1; 2; 3; 4; 5; 0; 0;
   6; 7; 8; 9; 10; 11; 12; 13; 0; 1; 2; 3; 4; 5; 0; 0; 6; 7; 8; 9; 10; 11; 12; 13; 0; 1; 2; 3;
   4; 5; 14; 15; 6; 7; 8; 9; 10; 11; 12; 13; 14; 15; 16; 17; 18; 19; 20; 21; 22; 23; 24; 25;
   26; 27; 28; 29; 14; 15; 16; 17; 18; 19; 20; 21; 22; 23; 24; 25; 26; 27; 28; 29; 0].
(* regmap[i][m] and colourmap[r], 6/ra.c:53-87 and 90-128 *)
Definition modeidx (m : mode) : nat :=
  match m with ModeNone => 0 | ModeB => 1 | ModeW => 2 | ModeL => 3 | ModeQ => 4 | ModeF => 5 | ModeD => 6 end.
Definition Nmode : nat := 7.
Definition Northogonal : nat := 30.
Definition regmap (i m : nat) : nat := nth m (nth i regmap_tab []) 0.
Definition colourmap (r : nat) : nat := nth r colourmap_tab 0.
(* _K, 6/ra.c:140-144 *)
Definition K (c : rclass) : Z := match c with Classbad => 0 | Classint => 14 | Classflt => 16 end.
(* all registers are prepainted up to Nreg, 6/ra.c:1420-1423 *)
Definition prepainted (r : nat) : bool := r <? Nreg.
(* isfixreg, 6/ra.c:184-192, on registers; only machine registers have these colours *)
Definition isfixreg (r : nat) : bool := (r =? Resp) || (r =? Rebp).

(* ---------- uses and definitions ---------- *)

Definition argregs (ks : list nat) (l : list loc) : list nat :=
  flat_map (fun k => match nth_error l (k - 1) with
                     | Some (Lreg r) => if isfixreg r then [] else [r]
                     | _ => []
                     end) ks.

(* uses, 6/ra.c:194-247; the index register is tested with the base, as in the code *)
Definition uses (i : insn) : list nat :=
  argregs (op_ul (iop i)) (args i) ++ op_ur (iop i) ++
  flat_map (fun a => match a with
                     | Lmem b => if isfixreg b then [] else [b]
                     | Lmemi b x => (if isfixreg b then [] else [b]) ++ (if isfixreg b then [] else [x])
                     | _ => []
                     end) (args i).

(* defs, 6/ra.c:249-276 *)
Definition defs (i : insn) : list nat := argregs (op_dl (iop i)) (args i) ++ op_dr (iop i).

(* udcalc, 6/ra.c:279-297; result (use, def) *)
Definition udcalc1 (ud : bset * bset) (i : insn) : bset * bset :=
  let '(us, df) := ud in
  (fold_left (fun us r => if bshas df r then us else bsput us r) (uses i) us,
   fold_left bsput (defs i) df).
Definition udcalc (b : block) : bset * bset := fold_left udcalc1 (il b) (0%N, 0%N).

(* liveness, 6/ra.c:305-336.  The successors of a block exist; they are visited in increasing order
   in C, which does not matter for a union. *)
Definition live_block (p : prog) (s : list bset * list bset * bool) (i : nat) : list bset * list bset * bool :=
  let '(ins, outs, changed) := s in
  match blk p i with
  | None => s
  | Some b =>
      let old := nth i outs 0%N in
      let out := fold_left (fun acc j => bsunion acc (nth j ins 0%N)) (succs b) old in
      let '(us, df) := udcalc b in
      (upd ins i (bsunion (bsdiff out df) us), upd outs i out, changed || negb (bseq old out))
  end.
Definition live_pass (p : prog) (ins outs : list bset) :=
  fold_left (live_block p) (rev (seq 0 (length (blocks p)))) (ins, outs, false).
Fixpoint live_iter (fuel : nat) (p : prog) (ins outs : list bset) : option (list bset * list bset) :=
  match fuel with
  | O => None
  | S fuel => let '(ins, outs, changed) := live_pass p ins outs in
              if changed then live_iter fuel p ins outs else Some (ins, outs)
  end.
Definition liveness (fuel : nat) (p : prog) : option (list bset * list bset) :=
  let z := repeat 0%N (length (blocks p)) in live_iter fuel p z z.

(* ---------- allocator state ---------- *)

(* which list locmap[r]->list points to *)
Inductive pl := Pnull | Pinitial | Psimp | Pfreeze | Pspill | Psel | Pcoal | Pspilled.
Definition pl_eqb (a b : pl) : bool :=
  match a, b with
  | Pnull, Pnull | Pinitial, Pinitial | Psimp, Psimp | Pfreeze, Pfreeze
  | Pspill, Pspill | Psel, Psel | Pcoal, Pcoal | Pspilled, Pspilled => true
  | _, _ => false
  end.

(* a register-to-register move: the instruction's uid and operands *)
Record mv := mkMv { m_uid : nat; m_src : nat; m_dst : nat }.

(* struct Isel, 6/asm.h; counters and lists that are never read (nuses, mcoalesced, mconstrained,
   mfrozen) are left out *)
Record st := mkSt {
  gb : list bset;              (* gbits, one row per register *)
  adj : list (list nat);       (* gadj *)
  deg : list Z;                (* degree *)
  coal : bset;                 (* coalesced *)
  alias : list (option nat);   (* aliasmap *)
  wlsimp : list nat; wlfreeze : list nat; wlspill : list nat; selstk : list nat;
  place : list pl;
  rmoves : list (list mv);
  wlmove : list mv; mactive : list mv;
  wlmoveset : bset; mactiveset : bset }.

Definition set_graph s g a d := mkSt g a d (coal s) (alias s) (wlsimp s) (wlfreeze s) (wlspill s)
  (selstk s) (place s) (rmoves s) (wlmove s) (mactive s) (wlmoveset s) (mactiveset s).
Definition set_deg s d := set_graph s (gb s) (adj s) d.
Definition set_alias s c a := mkSt (gb s) (adj s) (deg s) c a (wlsimp s) (wlfreeze s) (wlspill s)
  (selstk s) (place s) (rmoves s) (wlmove s) (mactive s) (wlmoveset s) (mactiveset s).
Definition set_wl s a b c d e := mkSt (gb s) (adj s) (deg s) (coal s) (alias s) a b c d e
  (rmoves s) (wlmove s) (mactive s) (wlmoveset s) (mactiveset s).
Definition set_moves s wm ma ws ms := mkSt (gb s) (adj s) (deg s) (coal s) (alias s) (wlsimp s) (wlfreeze s)
  (wlspill s) (selstk s) (place s) (rmoves s) wm ma ws ms.
Definition set_rmoves s rm := mkSt (gb s) (adj s) (deg s) (coal s) (alias s) (wlsimp s) (wlfreeze s)
  (wlspill s) (selstk s) (place s) rm (wlmove s) (mactive s) (wlmoveset s) (mactiveset s).

(* wlput, 6/ra.c:424-429, for the four lists; wlputset for coalesced, 438-443 *)
Definition put_simp s r := set_wl s (wlsimp s ++ [r]) (wlfreeze s) (wlspill s) (selstk s) (upd (place s) r Psimp).
Definition put_freeze s r := set_wl s (wlsimp s) (wlfreeze s ++ [r]) (wlspill s) (selstk s) (upd (place s) r Pfreeze).
Definition put_spill s r := set_wl s (wlsimp s) (wlfreeze s) (wlspill s ++ [r]) (selstk s) (upd (place s) r Pspill).
Definition put_sel s r := set_wl s (wlsimp s) (wlfreeze s) (wlspill s) (selstk s ++ [r]) (upd (place s) r Psel).
Definition set_place s r x := set_wl s (wlsimp s) (wlfreeze s) (wlspill s) (selstk s) (upd (place s) r x).
(* wlfind, 6/ra.c:366-379, and wldel, 431-436: the first occurrence *)
Definition wlfind (l : list nat) (r : nat) : bool := existsb (Nat.eqb r) l.
Fixpoint remove1 (r : nat) (l : list nat) : list nat :=
  match l with [] => [] | x :: t => if r =? x then t else x :: remove1 r t end.
Definition del_freeze s r := set_wl s (wlsimp s) (remove1 r (wlfreeze s)) (wlspill s) (selstk s) (upd (place s) r Pnull).
Definition del_spill s r := set_wl s (wlsimp s) (wlfreeze s) (remove1 r (wlspill s)) (selstk s) (upd (place s) r Pnull).

(* ---------- interference graph ---------- *)

(* gbhasedge, gbputedge, 6/ra.c:347-364 *)
Definition rowhas (g : list bset) (u v : nat) : bool := bshas (nth v g 0%N) u.
Definition gbhasedge s u v : bool := rowhas (gb s) u v.
Definition gput (g : list bset) (u v : nat) : list bset :=
  let g := upd g u (bsput (nth u g 0%N) v) in upd g v (bsput (nth v g 0%N) u).

(* degreechange, 6/ra.c:386-411 *)
Definition degreechange (g : list bset) (u v : nat) : Z :=
  let test phys virt :=
    if existsb (fun i => let r := regmap (colourmap phys) i in negb (r =? phys) && rowhas g virt r) (seq 0 Nmode)
    then 0%Z else 1%Z in
  if prepainted u then test u v else if prepainted v then test v u else 1%Z.

Section Alloc.
Variable p : prog.
Notation nreg := (nregs p).
Definition rcls (r : nat) : rclass := classof (vmode p r).

(* alputedge, 6/ra.c:413-422 *)
Definition alput (a : list (list nat)) (u v : nat) : list (list nat) := upd a u (nth u a [] ++ [v]).

Definition fixedreg (r : nat) : bool := (r =? Rrbp) || (r =? Rrsp) || (r =? Rrip).

(* addedge, 6/ra.c:445-469 *)
Definition addedge (s : st) (u v : nat) : st :=
  if (u =? v) || gbhasedge s u v then s
  else if fixedreg u then s
  else if fixedreg v then s
  else if negb (rclass_eqb (rcls u) (rcls v)) then s
  else if prepainted u && prepainted v then s
  else
    let g := gput (gput (gb s) u v) v u in
    let '(a, d) := if prepainted u then (adj s, deg s)
                   else (alput (adj s) u v, upd (deg s) u (nth u (deg s) 0 + degreechange g v u)%Z) in
    let '(a, d) := if prepainted v then (a, d)
                   else (alput a v u, upd d v (nth v d 0 + degreechange g u v)%Z) in
    set_graph s g a d.

(* setup, 6/ra.c:483-520.  mactive and wlmove are not reset by the code; they are taken as
   empty here, which is a simplification: that a round leaves them empty is not proved. *)
Definition setup : st :=
  mkSt (repeat 0%N nreg) (repeat [] nreg)
    (map (fun i => if prepainted i then 65536%Z else 0%Z) (seq 0 nreg))
    0%N (repeat None nreg) [] [] [] [] (repeat Pnull nreg) (repeat [] nreg) [] [] 0%N 0%N.

(* the live set of build, 6/ra.c:540-557: PUT and DEL on a sparse set, as the list livedense[0..nlive) *)
Definition sput (r : nat) (l : list nat) : list nat := if existsb (Nat.eqb r) l then l else l ++ [r].
Definition sdel (r : nat) (l : list nat) : list nat :=
  if existsb (Nat.eqb r) l then map (fun x => if x =? r then last l 0 else x) (removelast l) else l.

(* ismove, 6/ra.c:339-345 *)
Definition ismove (i : insn) : option mv :=
  match iop i, args i with
  | Omov, Lreg a :: Lreg b :: _ => Some (mkMv (uid i) a b)
  | _, _ => None
  end.

Definition addrmove (rm : list (list mv)) (m : mv) (r : nat) := upd rm r (nth r rm [] ++ [m]).

(* one iteration of the loop over instructions in build, 6/ra.c:566-618.
   State: allocator state, the set initial, and the live set. *)
Definition del_use (l : list nat) (u : nat) : list nat :=
  if prepainted u then fold_left (fun l a => sdel (regmap (colourmap u) a) l) (seq 0 Nmode) l else sdel u l.
Definition build_insn (x : st * bset * list nat) (i : insn) : st * bset * list nat :=
  let '(s, init, live) := x in
  let u := uses i in
  let d := defs i in
  let put_init := fold_left (fun b r => if prepainted r then b else bsput b r) in
  let init := put_init d (put_init u init) in
  let '(s, live) :=
    match ismove i with
    | Some m =>
        let rm := fold_left (fun rm r => addrmove rm m r) d (fold_left (fun rm r => addrmove rm m r) u (rmoves s)) in
        (set_moves (set_rmoves s rm) (wlmove s ++ [m]) (mactive s) (bsput (wlmoveset s) (m_uid m)) (mactiveset s),
         fold_left del_use u live)
    | None => (s, live)
    end in
  let live := fold_left (fun l r => sput r l) d live in
  let s := fold_left (fun s dk => fold_left (fun s l => addedge s dk l) live s) d s in
  let live := fold_left (fun l r => sdel r l) d live in
  let live := fold_left (fun l r => sput r l) u live in
  (s, init, live).

(* build, 6/ra.c:522-625 *)
Definition build_block (outs : list bset) (x : st * bset) (i : nat) : st * bset :=
  match blk p i with
  | None => x
  | Some b =>
      let '(s, init) := x in
      let live := fold_left (fun l r => sput r l) (members nreg (nth i outs 0%N)) [] in
      let '(s, init, _) := fold_left build_insn (rev (il b)) (s, init, live) in
      (s, init)
  end.
Definition build (outs : list bset) (s : st) (init : bset) : st * bset :=
  fold_left (build_block outs) (seq 0 (length (blocks p))) (s, init).

(* ---------- worklists ---------- *)

(* istrivial, 6/ra.c:299-303 *)
Definition istrivial (s : st) (r : nat) : bool := (nth r (deg s) 0 <? K (rcls r))%Z.
(* adjavail, 6/ra.c:627-635 *)
Definition adjavail (s : st) (r : nat) : bool := negb (pl_eqb (nth r (place s) Pnull) Psel) && negb (bshas (coal s) r).
(* nodemoves and moverelated, 6/ra.c:637-668 *)
Definition enabled (s : st) (m : mv) : bool := bshas (mactiveset s) (m_uid m) || bshas (wlmoveset s) (m_uid m).
Definition nodemoves (s : st) (r : nat) : list mv := filter (enabled s) (nth r (rmoves s) []).
Definition moverelated (s : st) (r : nat) : bool := existsb (enabled s) (nth r (rmoves s) []).

(* mkworklist, 6/ra.c:670-687; the colours are reset in paint below *)
Definition mkworklist (s : st) (init : bset) : st :=
  fold_left (fun s i =>
    if prepainted i then s
    else if negb (istrivial s i) then put_spill s i
    else if moverelated s i then put_freeze s i
    else put_simp s i) (members nreg init) s.

(* the search in mactive inside enablemove, 6/ra.c:700-708: after a deletion the loop index still advances *)
Definition mv_eqb (a b : mv) : bool := m_uid a =? m_uid b.
Fixpoint delskip (m : mv) (l : list mv) : list mv * nat :=
  match l with
  | [] => ([], 0)
  | x :: t =>
      if mv_eqb m x then
        match t with
        | [] => ([], 1)
        | y :: t' => let '(r, c) := delskip m t' in (y :: r, S c)
        end
      else let '(r, c) := delskip m t in (x :: r, c)
  end.
(* enablemove, 6/ra.c:689-718 *)
Definition enable1 (s : st) (m : mv) : st :=
  if bshas (mactiveset s) (m_uid m) then
    let '(l, c) := delskip m (mactive s) in
    if c =? 0 then s
    else set_moves s (wlmove s ++ repeat m c) l (bsput (wlmoveset s) (m_uid m)) (bsdel (mactiveset s) (m_uid m))
  else s.
Definition enablemove (s : st) (n : nat) : st := fold_left enable1 (nodemoves s n) s.

(* decdegree, 6/ra.c:720-768 *)
Definition decdegree (s : st) (m : nat) : option st :=
  if nreg <=? m then None else
  let before := istrivial s m in
  let s := set_deg s (upd (deg s) m (nth m (deg s) 0 - 1)%Z) in
  let after := istrivial s m in
  if Bool.eqb before after then Some s
  else
    let s := enablemove s m in
    let s := fold_left (fun s n => if adjavail s n then enablemove s n else s) (nth m (adj s) []) s in
    let found := wlfind (wlspill s) m in
    let s := if found then del_spill s m else s in
    if moverelated s m then
      if found then Some (put_freeze s m) else if wlfind (wlfreeze s) m then Some s else None
    else
      if found then Some (put_simp s m) else if wlfind (wlsimp s) m then Some s else None.

Definition bind {A B} (x : option A) (f : A -> option B) : option B := match x with Some a => f a | None => None end.

(* the common loop "for each available neighbour" *)
Definition for_avail (f : st -> nat -> option st) (s : st) (l : list nat) : option st :=
  fold_left (fun o t => bind o (fun s => if adjavail s t then f s t else Some s)) l (Some s).

(* simp, 6/ra.c:770-784 *)
Definition simp (s : st) : option st :=
  let l := last (wlsimp s) 0 in
  let s := set_wl s (removelast (wlsimp s)) (wlfreeze s) (wlspill s) (selstk s) (place s) in
  let s := put_sel s l in
  for_avail decdegree s (nth l (adj s) []).

(* getmappedalias and getalias, 6/ra.c:786-806.  The chain cannot be longer than the number of
   registers (getalias_end); the fuel bounds it. *)
Fixpoint follow (fuel : nat) (al : list (option nat)) (id : nat) : nat :=
  match fuel with
  | O => id
  | S f => match nth id al None with Some x => follow f al x | None => id end
  end.
Definition getalias (s : st) (id : nat) : nat := follow nreg (alias s) id.

(* wladd, 6/ra.c:808-824 *)
Definition wladd (s : st) (u : nat) : option st :=
  if prepainted u then Some s
  else if moverelated s u then Some s
  else if negb (istrivial s u) then Some s
  else if pl_eqb (nth u (place s) Pnull) Pfreeze || pl_eqb (nth u (place s) Pnull) Psimp then
    let s := if wlfind (wlfreeze s) u then del_freeze s u else s in
    Some (put_simp s u)
  else None.

(* conservative, ok, combinable, 6/ra.c:826-879 *)
Definition conservative (s : st) (u v : nat) : bool :=
  let cnt r := length (filter (fun n => adjavail s n && negb (istrivial s n)) (nth r (adj s) [])) in
  (Z.of_nat (cnt u + cnt v) <? K (rcls u))%Z.
Definition ok (s : st) (t r : nat) : bool := istrivial s t || prepainted t || gbhasedge s t r.
Definition combinable (s : st) (u v : nat) : bool :=
  if negb (mode_eqb (vmode p u) (vmode p v)) then false
  else if negb (prepainted u) && conservative s u v then true
  else forallb (fun t => negb (adjavail s t && negb (ok s t u))) (nth v (adj s) []).

(* combine, 6/ra.c:881-928 *)
Definition unionmoves (a b : list mv) : list mv :=
  fold_left (fun a m => if existsb (mv_eqb m) a then a else a ++ [m]) b a.
Definition combine (s : st) (u v : nat) : option st :=
  let s := if wlfind (wlfreeze s) v then del_freeze s v
           else if wlfind (wlspill s) v then del_spill s v else s in
  let s := set_place s v Pcoal in
  let s := set_alias s (bsput (coal s) v) (upd (alias s) v (Some u)) in
  let s := set_rmoves s (upd (rmoves s) u (unionmoves (nth u (rmoves s) []) (nth v (rmoves s) []))) in
  bind (for_avail (fun s t => decdegree (addedge s t u) t) s (nth v (adj s) []))
    (fun s => if negb (istrivial s u) && wlfind (wlfreeze s) u then Some (put_spill (del_freeze s u) u) else Some s).

(* constrained, 6/ra.c:930-943 *)
Definition constrained (s : st) (u v : nat) : bool :=
  if prepainted v then true
  else if prepainted u &&
          existsb (fun i => let r := regmap (colourmap u) i in negb (r =? 0) && gbhasedge s r v) (seq 0 Nmode)
       then true
  else gbhasedge s u v.

(* coalesce, 6/ra.c:945-978 *)
Definition coalesce (s : st) : option st :=
  let m := last (wlmove s) (mkMv 0 0 0) in
  let s := set_moves s (removelast (wlmove s)) (mactive s) (bsdel (wlmoveset s) (m_uid m)) (mactiveset s) in
  let u0 := getalias s (m_src m) in
  let v0 := getalias s (m_dst m) in
  let '(u, v) := if prepainted v0 then (v0, u0) else (u0, v0) in
  if u =? v then bind (wladd s u) (fun s => wladd s v)
  else if constrained s u v then bind (wladd s u) (fun s => wladd s v)
  else if combinable s u v then bind (combine s u v) (fun s => wladd s u)
  else Some (set_moves s (wlmove s) (mactive s ++ [m]) (wlmoveset s) (bsput (mactiveset s) (m_uid m))).

(* mldel, 6/ra.c:980-994, on each of the two lists *)
Fixpoint mremove1 (m : mv) (l : list mv) : list mv :=
  match l with [] => [] | x :: t => if mv_eqb m x then t else x :: mremove1 m t end.
Definition mldel_active (s : st) (m : mv) : st * bool :=
  if bshas (mactiveset s) (m_uid m) then
    (set_moves s (wlmove s) (mremove1 m (mactive s)) (wlmoveset s) (bsdel (mactiveset s) (m_uid m)),
     existsb (mv_eqb m) (mactive s))
  else (s, false).
Definition mldel_wl (s : st) (m : mv) : st :=
  if bshas (wlmoveset s) (m_uid m) then
    set_moves s (mremove1 m (wlmove s)) (mactive s) (bsdel (wlmoveset s) (m_uid m)) (mactiveset s)
  else s.

(* freezemoves, 6/ra.c:996-1029 *)
Definition freeze1 (u : nat) (o : option st) (m : mv) : option st :=
  bind o (fun s =>
    let v := if getalias s (m_src m) =? getalias s u then getalias s (m_dst m) else getalias s (m_src m) in
    let '(s, found) := mldel_active s m in
    let s := if found then s else mldel_wl s m in
    if negb (moverelated s v) && istrivial s v then
      if wlfind (wlfreeze s) v then Some (put_simp (del_freeze s v) v) else None
    else Some s).
Definition freezemoves (s : st) (u : nat) : option st := fold_left (freeze1 u) (nodemoves s u) (Some s).

(* freeze, 6/ra.c:1031-1039 *)
Definition freeze (s : st) : option st :=
  let l := last (wlfreeze s) 0 in
  let s := set_wl s (wlsimp s) (removelast (wlfreeze s)) (wlspill s) (selstk s) (place s) in
  freezemoves (put_simp s l) l.

(* selspill, 6/ra.c:1041-1073; should and never are the sets shouldspill and neverspill *)
Definition selspill (should never : nat -> bool) (s : st) : option st :=
  let m := match find should (wlspill s) with
           | Some m => Some m
           | None => find (fun r => negb (never r)) (wlspill s)
           end in
  bind m (fun m => freezemoves (put_simp (del_spill s m) m) m).

(* the inner loop of regalloc, 6/ra.c:1439-1451; None: a failed assertion.  The do-while body does nothing
   when all lists are empty, so a while loop is the same. *)
Definition step (should never : nat -> bool) (s : st) : option st :=
  match wlsimp s, wlmove s, wlfreeze s, wlspill s with
  | _ :: _, _, _, _ => simp s
  | [], _ :: _, _, _ => coalesce s
  | [], [], _ :: _, _ => freeze s
  | [], [], [], _ => selspill should never s
  end.
Definition finished (s : st) : bool :=
  match wlsimp s, wlmove s, wlfreeze s, wlspill s with [], [], [], [] => true | _, _, _, _ => false end.

(* outcomes of the loop *)
Inductive outcome := Done (s : st) | Dies | Nofuel.
Fixpoint loop (fuel : nat) should never (s : st) : outcome :=
  if finished s then Done s
  else match fuel with
       | O => Nofuel
       | S f => match step should never s with Some s => loop f should never s | None => Dies end
       end.

(* ---------- colouring ---------- *)

(* initial colours: a machine register is its own colour, mkworklist clears the others (6/ra.c:686) *)
Definition colours0 : list nat := map (fun r => if prepainted r then r else 0) (seq 0 nreg).

(* one iteration of paint's loop, 6/ra.c:1091-1112, for the popped register n; cs = (colours, spilled) *)
Definition takenby (s : st) (col : list nat) (n : nat) : list nat :=
  flat_map (fun l => let c := nth (getalias s l) col 0 in if c =? 0 then [] else [colourmap c]) (nth n (adj s) []).
Definition pick (taken : list nat) (m : mode) : option nat :=
  find (fun i => negb (regmap i (modeidx m) =? 0) && negb (existsb (Nat.eqb i) taken)) (seq 0 Northogonal).
Definition paint1 (s : st) (cs : list nat * bset) (n : nat) : list nat * bset :=
  let '(col, sp) := cs in
  match pick (takenby s col n) (vmode p n) with
  | Some i => (upd col n (regmap i (modeidx (vmode p n))), sp)
  | None => (col, bsput sp n)
  end.
(* paint, 6/ra.c:1079-1118; spilled is the set of registers no colour was found for *)
Definition paint (s : st) : list nat * bset :=
  let '(col, sp) := fold_left (paint1 s) (rev (selstk s)) (colours0, 0%N) in
  (fold_left (fun col l => upd col l (nth (getalias s l) col 0)) (members nreg (coal s)) col, sp).

(* one round of regalloc's outer loop up to and including paint, 6/ra.c:1431-1452 *)
Definition allocstate (fuel : nat) should never (init : bset) : option outcome :=
  match liveness fuel p with
  | None => None
  | Some (_, outs) =>
      let '(s, init) := build outs setup init in
      Some (loop fuel should never (mkworklist s init))
  end.

End Alloc.

Definition allocate (fuel : nat) (should never : nat -> bool) (p : prog) : option (list nat * bset) :=
  match allocstate p fuel should never 0%N with
  | Some (Done s) => Some (paint p s)
  | _ => None
  end.
