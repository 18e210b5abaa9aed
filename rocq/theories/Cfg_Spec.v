(* What it means for a definition to reach a program point, for a variable to be read, and
   for a flattened function body to be executed. Only the syntax comes from the model. *)
From Verif Require Import Base Cfg_Model.

(* The variable a statement assigns: plain and compound assignment, the markers for
   (un)defined variables, and block copies/clears whose destination is &v. *)
Inductive Assigns : expr -> nat -> Prop :=
| as_direct : forall o i d a j v vi va vj vargs rest,
    In o [Oundef; Odef; Oset; Oasn; Oaddeq; Osubeq; Omuleq; Odiveq; Omodeq;
          Oboreq; Obandeq; Obxoreq; Obsleq; Obsreq] ->
    Assigns (Ex o i d a j (Ex Ovar vi v va vj vargs :: rest)) v
| as_blit : forall o i d a j ai ad aa aj v vi va vj vargs arest rest,
    In o [Oblit; Oclear] ->
    Assigns (Ex o i d a j (Ex Oaddr ai ad aa aj (Ex Ovar vi v va vj vargs :: arest) :: rest)) v.

(* A program point is a block and a position in it. Definition d of variable v reaches a
   point when control can go from just after d to that point with no assignment to v on the way. *)
Definition point := (nat * nat)%type.
Definition stmt_at (g : cfg) (pt : point) (s : expr) : Prop :=
  exists b, blk g (fst pt) = Some b /\ nth_error (nl b) (snd pt) = Some s.
Definition edge (g : cfg) (i j : nat) : Prop :=
  exists bi bj, blk g i = Some bi /\ blk g j = Some bj /\ bshas (pred bj) i = true.
Inductive Reaches (g : cfg) (d v : nat) : point -> Prop :=
| re_def : forall i k s, stmt_at g (i, k) s -> enid s = d -> Assigns s v -> Reaches g d v (i, S k)
| re_stmt : forall i k s, Reaches g d v (i, k) -> stmt_at g (i, k) s -> ~ Assigns s v -> Reaches g d v (i, S k)
| re_edge : forall i j b, Reaches g d v (i, length (nl b)) -> blk g i = Some b -> edge g i j -> Reaches g d v (j, 0).

(* An assignment does not share its identity with another node. *)
Definition distinct_nodes (g : cfg) : Prop :=
  forall s s' v, In s (stmts g) -> In s' (stmts g) -> Assigns s v -> enid s = enid s' -> s = s'.
(* A store through something other than a variable carries a declaration id (0) that no
   statement of this function assigns as a variable. *)
Definition stores_dont_alias (g : cfg) : Prop :=
  forall s n, In s (stmts g) -> assignee s = Some n -> eop n <> Ovar ->
  forall s', In s' (stmts g) -> ~ Assigns s' (edid n).

(* Evaluating e reads the value of the (scalar) variable v *)
Inductive Reads (v : nat) : expr -> Prop :=
| rd_var : forall i j args, Reads v (Ex Ovar i v false j args)
| rd_store : forall o i d a j x y rest, In o [Oset; Oasn; Oblit] -> Reads v y -> Reads v (Ex o i d a j (x :: y :: rest))
| rd_dest : forall o i d a j x rest s, In o [Oset; Oasn; Oaddr; Oslice] -> eop x <> Ovar -> In s (eargs x) -> Reads v s ->
    Reads v (Ex o i d a j (x :: rest))
| rd_blitdest : forall i d a j x rest, Reads v x -> Reads v (Ex Oblit i d a j (x :: rest))
| rd_index : forall o i d a j x rest y, In o [Oaddr; Oslice] -> In y rest -> Reads v y -> Reads v (Ex o i d a j (x :: rest))
| rd_other : forall o i d a j args y, ~ In o [Ovar; Oset; Oasn; Oblit; Oaddr; Oslice; Oundef; Odef] -> In y args -> Reads v y ->
    Reads v (Ex o i d a j args).

(* Same, leaving out the operands the checker deliberately or accidentally skips: the
   destination of a store, the base of an address or slice, the callee and by-address
   arguments of a call. *)
Inductive ReadsChecked (v : nat) : expr -> Prop :=
| rc_var : forall i j args, ReadsChecked v (Ex Ovar i v false j args)
| rc_store : forall o i d a j x y rest, In o [Oset; Oasn; Oblit] -> ReadsChecked v y -> ReadsChecked v (Ex o i d a j (x :: y :: rest))
| rc_index : forall o i d a j x rest y, In o [Oaddr; Oslice] -> In y rest -> ReadsChecked v y -> ReadsChecked v (Ex o i d a j (x :: rest))
| rc_arg : forall i d a j x rest y, In y rest -> eop y <> Oaddr -> ReadsChecked v y -> ReadsChecked v (Ex Ocall i d a j (x :: rest))
| rc_other : forall o i d a j args y, ~ In o [Ovar; Oset; Oasn; Oblit; Oaddr; Oslice; Ocall] -> In y args -> ReadsChecked v y ->
    ReadsChecked v (Ex o i d a j args).

(* Execution of a flattened body p: pc counts elements; pc = length p is falling off the end.
   A jump goes to just after its label; after a return, a dead point or a call to a function
   that never returns there is no next step. *)
Inductive Step (noret : nat -> bool) (p : list item) : nat -> nat -> Prop :=
| st_decl : forall pc, nth_error p pc = Some IDecl -> Step noret p pc (S pc)
| st_lbl : forall pc l, nth_error p pc = Some (ILbl l) -> Step noret p pc (S pc)
| st_jmp : forall pc e l t, nth_error p pc = Some (IEx e) -> In (eop e) [Ojmp; Ocjmp] -> In l (ejl e) ->
    nth_error p t = Some (ILbl l) -> Step noret p pc (S t)
| st_next : forall pc e, nth_error p pc = Some (IEx e) ->
    ~ In (eop e) [Ojmp; Ocjmp; Oret; Odead] -> ~ (eop e = Ocall /\ isnonretcall noret e = true) ->
    Step noret p pc (S pc).
Inductive Runs (noret : nat -> bool) (p : list item) : nat -> Prop :=
| run_start : Runs noret p 0
| run_step : forall a b, Runs noret p a -> Step noret p a b -> Runs noret p b.

(* the labels of a body are distinct *)
Definition labels (p : list item) : list lbl := flat_map (fun x => match x with ILbl l => [l] | _ => [] end) p.

(* A value given to v by the statement with identity d is still the value of v when some
   execution arrives at pc. *)
Inductive FReaches (noret : nat -> bool) (p : list item) (d v : nat) : nat -> Prop :=
| fr_def : forall pc s pc', Runs noret p pc -> nth_error p pc = Some (IEx s) -> enid s = d -> Assigns s v ->
    Step noret p pc pc' -> FReaches noret p d v pc'
| fr_step : forall pc pc', FReaches noret p d v pc -> (forall s, nth_error p pc = Some (IEx s) -> ~ Assigns s v) ->
    Step noret p pc pc' -> FReaches noret p d v pc'.

(* The same two well-formedness conditions, on a flattened body.  0 stands for the identity
   of the jumps the graph builder inserts. *)
Definition body_distinct (p : list item) : Prop :=
  forall s v, In (IEx s) p -> Assigns s v -> enid s <> 0 /\ forall s', In (IEx s') p -> enid s = enid s' -> s = s'.
Definition body_dont_alias (p : list item) : Prop :=
  forall s n, In (IEx s) p -> assignee s = Some n -> eop n <> Ovar ->
  forall s', In (IEx s') p -> ~ Assigns s' (edid n).
