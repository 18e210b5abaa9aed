(* What users of the allocator do, and what they may rely on. *)
From Verif Require Import Base Alloc_Model.
Open Scope Z_scope.

(* The allocator with its users: the blocks allocated and not yet freed (address, size), and the regions that bigfree has
   taken out of its cache but not yet given back to the system (it does that after releasing the lock). *)
Record world := { heap : st; live : list (Z * Z); pend : list (Z * Z) }.

(* The system hands out whole pages that nobody has yet, never the first one. *)
Definition os_ok (os : Z -> option Z) (s : st) : Prop :=
  forall n p, os n = Some p -> 0 < p /\ p mod Pagesz = 0 /\ forall a, p <= a < p + n -> mapped s a = false.
(* the addresses of a block *)
Definition inblock (b : Z * Z) (a : Z) : Prop := fst b <= a < fst b + snd b.

(* One step: somebody allocates, frees a block they own, writes to a block they own, or an evicted region is unmapped.
   The memory lock makes allocating and freeing atomic. *)
Inductive step : world -> world -> Prop :=
| Step_alloc w os fill sz p s :
    0 <= sz -> os_ok os (heap w) -> bytealloc os fill sz (heap w) = Ok p s ->
    step w {| heap := s; live := (p, sz) :: live w; pend := pend w |}
| Step_free w l p sz l' e s :
    live w = l ++ (p, sz) :: l' -> bytefree p sz (heap w) = Ok e s ->
    step w {| heap := s; live := l ++ l'; pend := match e with Some r => r :: pend w | None => pend w end |}
| Step_unmap w l p n l' s :
    pend w = l ++ (p, n) :: l' -> freemem p n (heap w) = Ok tt s ->
    step w {| heap := s; live := live w; pend := l ++ l' |}
| Step_write w m :
    (forall a, mem (heap w) a <> m a -> exists b, In b (live w) /\ inblock b a) ->
    step w {| heap := {| mem := m; mapped := mapped (heap w); bkts := bkts (heap w); big := big (heap w) |};
              live := live w; pend := pend w |}.
Inductive reachable : world -> Prop :=
| R_init m mp : reachable {| heap := initial m mp; live := []; pend := [] |}
| R_step w w' : reachable w -> step w w' -> reachable w'.

(* two blocks have no byte in common, and not the same address even if one is empty *)
Definition apart (b b' : Z * Z) : Prop := fst b <> fst b' /\ forall a, inblock b a -> ~ inblock b' a.

(* freeing any number of blocks *)
Inductive frees : world -> world -> Prop :=
| Frees_none w : frees w w
| Frees_one w l p sz l' e s w' :
    live w = l ++ (p, sz) :: l' -> bytefree p sz (heap w) = Ok e s ->
    frees {| heap := s; live := l ++ l'; pend := match e with Some r => r :: pend w | None => pend w end |} w' -> frees w w'.
(* allocating blocks of these sizes while the system gives no more memory *)
Fixpoint allocs (szs : list Z) (s : st) : out (list Z) :=
  match szs with
  | [] => Ok [] s
  | sz :: szs => match bytealloc (fun _ => None) (fun _ => 0) sz s with
                 | Ok p s => match allocs szs s with Ok ps s => Ok (p :: ps) s | Segv => Segv | Die => Die end
                 | Segv => Segv
                 | Die => Die
                 end
  end.
(* Once everything is freed there is room again for blocks of the same sizes. *)
Definition reuses (w : world) : Prop :=
  forall w', frees w w' -> live w' = [] -> exists ps s, allocs (map snd (live w)) (heap w') = Ok ps s.
(* a world where blocks of these sizes have just been allocated *)
Inductive filled : list Z -> world -> Prop :=
| Filled_none m mp : filled [] {| heap := initial m mp; live := []; pend := [] |}
| Filled_more szs w os fill sz p s :
    filled szs w -> 0 <= sz -> os_ok os (heap w) -> bytealloc os fill sz (heap w) = Ok p s ->
    filled (sz :: szs) {| heap := s; live := (p, sz) :: live w; pend := pend w |}.
