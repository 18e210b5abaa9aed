From Verif Require Import Base Layout_Model Layout_Spec Layout_Proofs.
Local Open Scope N_scope.

(* C18.  The sizes and alignments the compiler computes are those of the specification, for every
   type whose size fits in a machine word; the size is a multiple of the alignment. *)
Theorem C18_sizes : forall t, extent t < 2 ^ 64 ->
  tysize t = extent t /\ tyalign t = alignment t /\ (tyalign t | tysize t).
Proof.
  intros t H. rewrite tyalign_spec, tysize_extent by exact H. repeat split. apply extent_div.
Qed.
Print Assumptions C18_sizes.

(* Every part of a value, at any depth, is found at a definite offset; that offset is a multiple
   of the part's alignment, and the part ends inside the value.  The whole's alignment is a
   multiple of the part's, so a value placed at an aligned address has aligned parts. *)
Theorem C18_parts_inside : forall heap t p u, wf t -> extent t < 2 ^ 64 -> parts t p u ->
  exists o, path_offset heap t p u o /\
    (forall u' o', path_offset heap t p u' o' -> u' = u /\ o' = o) /\
    (tyalign u | o) /\ o + tysize u <= tysize t /\ (tyalign u | tyalign t).
Proof.
  intros heap t p u W B P. destruct (parts_ok heap t p u W B P) as (o & PO & D & L & DA).
  exists o. rewrite !tyalign_spec, !tysize_extent by (try exact B; change (2 ^ 64) with W64 in B; lia).
  repeat split; auto;
  destruct (path_offset_fun heap t p u o u' o' W B PO H) as [-> ->]; reflexivity.
Qed.
Print Assumptions C18_parts_inside.

(* Two different parts of a struct, tuple or array, and everything inside them, do not overlap. *)
Theorem C18_parts_disjoint : forall heap t p q u v o o', wf t -> extent t < 2 ^ 64 -> apart p q ->
  path_offset heap t p u o -> path_offset heap t q v o' ->
  o + tysize u <= o' \/ o' + tysize v <= o.
Proof.
  intros heap t p q u v o o' W B A P Q.
  pose proof (path_inside _ _ _ _ _ W B P) as (_ & I1 & _). pose proof (path_inside _ _ _ _ _ W B Q) as (_ & I2 & _).
  change (2 ^ 64) with W64 in B.
  rewrite !tysize_extent by lia. eapply apart_ok; eauto.
Qed.
Print Assumptions C18_parts_disjoint.

(* Tuple elements are built, read and addressed at the same offsets. *)
Theorem C18_tuple_offsets_agree : forall heap ts i, extent (Ttuple ts) < 2 ^ 64 ->
  tyoffset heap (Ttuple ts) (Mlit i) = nth_error (simptup 0 ts) i /\
  tupgetoff 0 ts i = nth_error (simptup 0 ts) i.
Proof.
  intros heap ts i B. split; [|apply tupgetoff_spec].
  cbn [extent] in B. change (fun o x => roundup o (alignment x) + extent x) with tupext in B.
  pose proof (roundup_ge (fold_left tupext ts 0) _ (alignment_pos (Ttuple ts))).
  change (2 ^ 64) with W64 in B. rewrite simptup_spec by lia.
  unfold tyoffset; cbn [tybase]. apply tupoff_spec; [lia|].
  destruct ts; auto. apply roundup_id; [apply alignment_pos|apply N.divide_0_r].
Qed.
Print Assumptions C18_tuple_offsets_agree.

(* A member reached through a pointer has the offset it has in the pointed-to type. *)
Theorem C18_through_pointer : forall heap p m t, tybase (heap p) = t ->
  (forall q, t <> Tptr q) -> tyoffset heap (Tptr p) m = tyoffset heap t m.
Proof.
  intros heap p m t E N. unfold tyoffset. cbn [tybase]. rewrite E.
  assert (tybase t = t) as -> by (rewrite <- E; clear; induction (heap p) using ty_ind'; cbn [tybase]; auto).
  destruct t; auto. destruct (N target eq_refl).
Qed.
Print Assumptions C18_through_pointer.

(* A type whose size does not fit in 64 bits is not rejected: its computed size wraps and two
   of its fields are given the same place. *)
Theorem C18_oversize : exists heap ms,
  wf (Tstruct ms) /\ 2 ^ 64 <= extent (Tstruct ms) /\
  tyoffset heap (Tstruct ms) (Mname "a") = Some 0 /\ tyoffset heap (Tstruct ms) (Mname "c") = Some 0 /\
  tysize (Tstruct ms) = 1.
Proof.
  exists (fun _ => Tcode),
    [("a"%string, Tprim Pbyte); ("b"%string, Tarray (Some 18446744073709551615) (Tprim Pbyte)); ("c"%string, Tprim Pbyte)].
  split. { cbn. repeat split; auto. repeat constructor; cbn; intuition discriminate. }
  split; [vm_compute; discriminate|]. repeat split; vm_compute; reflexivity.
Qed.
Print Assumptions C18_oversize.

(* a struct that points to itself, holding a byte, an array of pairs and a union *)
Definition demo_union : ty :=
  Tname (Tunion [("None"%string, None); ("Small"%string, Some (Tprim Pbyte)); ("Big"%string, Some (Ttuple [Tprim Pbyte; Tprim Pflt64]))]).
Definition demo : ty :=
  Tname (Tstruct [("flag"%string, Tprim Pbool);
                  ("pairs"%string, Tarray (Some 3) (Ttuple [Tprim Pint16; Tprim Pint32]));
                  ("u"%string, demo_union); ("next"%string, Tptr 0); ("c"%string, Tprim Pbyte)]).
Example C18_example :
  wf demo /\ extent demo < 2 ^ 64 /\ tysize demo = 72 /\ tyalign demo = 8 /\
  parts demo [Sfield "pairs"; Sidx 2; Selt 1] (Tprim Pint32) /\
  path_offset (fun _ => demo) demo [Sfield "pairs"; Sidx 2; Selt 1] (Tprim Pint32) 24 /\
  path_offset (fun _ => demo) demo [Sfield "u"; Spayload "Big"; Selt 1] (Tprim Pflt64) 48 /\
  apart [Sfield "pairs"; Sidx 2; Selt 1] [Sfield "u"; Spayload "Big"; Selt 1] /\
  tyoffset (fun _ => demo) (Tptr 0) (Mname "c") = Some 64.
Proof.
  split. { cbn. repeat split; auto; repeat constructor; cbn; intuition discriminate. }
  split; [reflexivity|]. split; [reflexivity|]. split; [reflexivity|].
  split.
  { eapply parts_cons. { apply part_name. apply part_field. cbn. eauto. }
    eapply parts_cons. { apply part_idx. reflexivity. }
    eapply parts_cons. { now apply part_elt. } apply parts_nil. }
  split.
  { change 24 with (add64 4 (add64 16 (add64 4 0))).
    eapply po_cons. { apply part_name. apply part_field. cbn. eauto. } { reflexivity. }
    eapply po_cons. { apply part_idx. reflexivity. } { reflexivity. }
    eapply po_cons. { now apply part_elt. } { reflexivity. } apply po_nil. }
  split.
  { change 48 with (add64 32 (add64 8 (add64 8 0))).
    eapply po_cons. { apply part_name. apply part_field. cbn. eauto. } { reflexivity. }
    eapply po_cons. { apply part_name. apply part_payload. cbn. eauto. } { reflexivity. }
    eapply po_cons. { now apply part_elt. } { reflexivity. } apply po_nil. }
  split; [apply apart_field; discriminate|reflexivity].
Qed.

(* C19.  The payload of every constructor is stored and read at one place, past the 4-byte tag,
   at a multiple of its alignment, and ends inside the union. *)
Theorem C19_union : forall cs c e, extent (Tunion cs) < 2 ^ 64 -> In (c, Some e) cs ->
  uconoff e = ugetoff e /\ 4 <= ugetoff e /\ (tyalign e | ugetoff e) /\
  ugetoff e + tysize e <= tysize (Tunion cs) /\ (tyalign e | tyalign (Tunion cs)).
Proof.
  intros cs c e B H. split; [reflexivity|]. change (2 ^ 64) with W64 in B. rewrite !tyalign_spec.
  rewrite (tysize_extent (Tunion cs) B). cbn [extent] in *.
  change (fun m c => N.max m match snd c with Some e => roundup 4 (alignment e) + extent e | None => 0 end) with uniext in *.
  pose proof (roundup_ge (fold_left uniext cs 4) _ (alignment_pos (Tunion cs))) as G.
  pose proof (uniext_in cs 4 c e H) as G2. rewrite tysize_extent by lia.
  unfold ugetoff, Wordsz. rewrite alignto_spec by lia.
  pose proof (roundup_ge 4 _ (alignment_pos e)).
  repeat split; [lia|apply roundup_div|lia|].
  apply p2_max_div; try apply alignment_p2. cbn [alignment].
  change (map (fun c : string * option ty => match snd c with Some e => alignment e | None => 1 end) cs) with (map ucal cs).
  pose proof (maxlist_ge (map ucal cs) (alignment e)) as M.
  specialize (M ltac:(apply in_map_iff; exists (c, Some e); auto)). lia.
Qed.
Print Assumptions C19_union.

(* the tag itself is aligned and inside, whatever the constructors *)
Theorem C19_tag : forall cs, extent (Tunion cs) < 2 ^ 64 ->
  4 <= tysize (Tunion cs) /\ (4 | tyalign (Tunion cs)) /\ (tyalign (Tunion cs) | tysize (Tunion cs)).
Proof.
  intros cs B. change (2 ^ 64) with W64 in B. rewrite tyalign_spec, (tysize_extent _ B).
  split; [|split; [|apply extent_div]].
  - cbn [extent].
    change (fun m c => N.max m match snd c with Some e => roundup 4 (alignment e) + extent e | None => 0 end) with uniext.
    pose proof (roundup_ge (fold_left uniext cs 4) _ (alignment_pos (Tunion cs))). pose proof (uniext_ge cs 4). lia.
  - apply p2_max_div; [unfold p2; lia|apply alignment_p2|cbn [alignment]; lia].
Qed.
Print Assumptions C19_tag.

Example C19_example :
  let cs := [("None"%string, None); ("Small"%string, Some (Tprim Pbyte)); ("Big"%string, Some (Ttuple [Tprim Pbyte; Tprim Pflt64]))] in
  extent (Tunion cs) < 2 ^ 64 /\ In ("Big"%string, Some (Ttuple [Tprim Pbyte; Tprim Pflt64])) cs /\
  tysize (Tunion cs) = 24 /\ ugetoff (Ttuple [Tprim Pbyte; Tprim Pflt64]) = 8 /\ ugetoff (Tprim Pbyte) = 4.
Proof. cbn [In]. repeat split; auto. Qed.

(* C54.  The environment of a closure.  The first 8 bytes hold its size.  The places where the
   creator of the closure stores the captured variables are those where its body finds them;
   they are past the size, aligned, disjoint, inside the memory set aside for the environment,
   and inside the recorded size, so that a copy of that many bytes copies every variable. *)
Theorem C54_environment : forall env, let T := Ttuple (Tprim Pint64 :: env) in extent T + 8 < 2 ^ 64 ->
  envload 8 env = envstore 8 env /\ length (envstore 8 env) = length env /\
  envsize 8 env <= tysize T /\
  (forall i t, nth_error env i = Some t -> exists o, nth_error (envstore 8 env) i = Some o /\
     8 <= o /\ (tyalign t | o) /\ o + tysize t <= envsize 8 env /\ (tyalign t | tyalign T)) /\
  (forall i j t u o o', (i < j)%nat -> nth_error env i = Some t -> nth_error env j = Some u ->
     nth_error (envstore 8 env) i = Some o -> nth_error (envstore 8 env) j = Some o' ->
     o + tysize t <= o').
Proof.
  intros env T B. change (2 ^ 64) with W64 in B.
  change (envload 8 env) with (simptup 8 env). change (envstore 8 env) with (simptup 8 env).
  split; [reflexivity|]. pose proof (roundup_ge (fold_left tupext env 8) _ (alignment_pos T)) as G.
  assert (extent T = roundup (fold_left tupext env 8) (alignment T)) as ET by reflexivity.
  rewrite ET in B. rewrite simptup_spec by lia. rewrite places_length. split; [reflexivity|].
  rewrite (tysize_extent T) by lia. rewrite envsize_spec by lia. rewrite ET. split; [exact G|]. split.
  - intros i t Hi. destruct (places_at env 8 i t Hi) as (p & E & D & L8 & L). exists p.
    rewrite !tyalign_spec, (tysize_extent t) by lia. repeat split; auto.
    apply p2_max_div; try apply alignment_p2. cbn [alignment T]. apply maxlist_ge. apply in_map. right.
    eapply nth_error_In; eauto.
  - intros i j t u o o' Lt Hi Hj Eo Eo'. destruct (places_order env 8 i j t u Lt Hi Hj) as (p & q & Ep & Eq & L).
    destruct (places_at env 8 i t Hi) as (p' & Ep' & _ & _ & L'). assert (p' = p) by congruence. subst p'.
    rewrite tysize_extent by lia. congruence.
Qed.
Print Assumptions C54_environment.

Example C54_example : let env := [Tprim Pbyte; Tprim Pint64; Tprim Pbyte; Tprim Pint16] in
  extent (Ttuple (Tprim Pint64 :: env)) + 8 < 2 ^ 64 /\
  envstore 8 env = [8; 16; 24; 26] /\ envsize 8 env = 28 /\ tysize (Ttuple (Tprim Pint64 :: env)) = 32.
Proof. repeat split; vm_compute; auto. Qed.
