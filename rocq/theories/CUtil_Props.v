From Verif Require Import Base CUtil_Model CUtil_Proofs.

(* C07: align rounds up to the next multiple of a power of two: the result is a multiple of
   the alignment, at least sz, and no smaller multiple is at least sz. *)
Theorem C07_align_rounds_up : forall sz p : N,
  let a := (2 ^ p)%N in
  (a <= 2 ^ 64)%N -> (sz + a - 1 < 2 ^ 64)%N ->
  let r := align sz a in
  (sz <= r /\ r mod a = 0 /\ forall m, m mod a = 0 -> sz <= m -> r <= m)%N.
Proof. exact align_spec. Qed.
Print Assumptions C07_align_rounds_up.

(* the documented special case *)
Theorem C07_align_zero : forall sz, align sz 0 = sz.
Proof. reflexivity. Qed.
Print Assumptions C07_align_zero.

Example C07_example : align 13 8 = 16%N /\ align 16 8 = 16%N /\ align 0 4 = 0%N /\ align 4097 4096 = 8192%N.
Proof. vm_compute. auto. Qed.

(* C08: a list built by the helpers holds exactly the sequence that the corresponding
   operations on mathematical sequences give.  A list in memory represents xs when its block
   has exactly length xs cells, holding xs, and its length field is length xs. *)
Theorem C08_append : forall A (l : dl A) xs x, l = (map Some xs, length xs) ->
  lappend l x = Some (map Some (xs ++ [x]), length (xs ++ [x])).
Proof. intros A l xs x H. destruct (lappend_spec l xs x H) as (l' & E & R). rewrite E. f_equal. exact R. Qed.
Print Assumptions C08_append.

Theorem C08_pop : forall A (l : dl A) xs x, l = (map Some (xs ++ [x]), length (xs ++ [x])) ->
  lpop l = Some (x, (map Some xs, length xs)).
Proof. intros A l xs x H. destruct (lpop_spec l xs x H) as (l' & E & R). rewrite E. do 2 f_equal. exact R. Qed.
Print Assumptions C08_pop.

Theorem C08_insert : forall A (l : dl A) pre post x,
  l = (map Some (pre ++ post), length (pre ++ post)) ->
  linsert l (length pre) x = Some (map Some (pre ++ x :: post), length (pre ++ x :: post)).
Proof.
  intros A l pre post x H. destruct (linsert_spec l (pre ++ post) (length pre) x H) as (l' & E & R).
  - rewrite app_length. lia.
  - rewrite E. f_equal. rewrite R. rewrite firstn_app, skipn_app, firstn_all, skipn_all, Nat.sub_diag. cbn [firstn skipn app].
    now rewrite app_nil_r.
Qed.
Print Assumptions C08_insert.

Theorem C08_delete : forall A (l : dl A) pre x post,
  l = (map Some (pre ++ x :: post), length (pre ++ x :: post)) ->
  ldel l (length pre) = Some (map Some (pre ++ post), length (pre ++ post)).
Proof.
  intros A l pre x post H. destruct (ldel_spec l (pre ++ x :: post) (length pre) H) as (l' & E & R).
  - rewrite app_length. cbn. lia.
  - rewrite E. f_equal. rewrite R. rewrite firstn_app, skipn_app, firstn_all, Nat.sub_diag. 
    rewrite skipn_all2 by lia. replace (S (length pre) - length pre) with 1 by lia. cbn [firstn skipn app].
    now rewrite app_nil_r.
Qed.
Print Assumptions C08_delete.

Theorem C08_concat : forall A (l : dl A) xs ys, l = (map Some xs, length xs) ->
  lcat l ys = Some (map Some (xs ++ ys), length (xs ++ ys)).
Proof. intros A l xs ys H. destruct (lcat_spec l xs ys H) as (l' & E & R). rewrite E. f_equal. exact R. Qed.
Print Assumptions C08_concat.

Example C08_example :
  exists l1 l2 l3, lcat ([], 0) [10; 20; 30] = Some l1 /\ linsert l1 1 15 = Some l2 /\ ldel l2 0 = Some l3 /\
    lpop l3 = Some (30, ([Some 15; Some 20], 2)).
Proof. do 3 eexists. repeat split. Qed.

(* C45: replacing a file suffix *)
Theorem C45_suffix_replaced : forall sz base suf swap,
  base <> [] -> length base + length suf + length swap < sz ->
  swapsuffix sz (base ++ suf) suf swap = Some (Some (base ++ swap)).
Proof. exact swapsuffix_match. Qed.
Print Assumptions C45_suffix_replaced.

Theorem C45_suffix_appended : forall sz s suf swap,
  length suf <= length s -> (forall base, base <> [] -> s <> base ++ suf) ->
  length s + length swap < sz -> swapsuffix sz s suf swap = Some (Some (s ++ swap)).
Proof. exact swapsuffix_nomatch. Qed.
Print Assumptions C45_suffix_appended.

(* the string written, with its terminating NUL, fits the buffer of sz bytes *)
Theorem C45_fits_buffer : forall sz s suf swap r,
  swapsuffix sz s suf swap = Some (Some r) -> length r + 1 <= sz.
Proof.
  intros sz s suf swap r. unfold swapsuffix.
  destruct (Nat.ltb_spec (length s) (length suf)); [discriminate|].
  destruct (Nat.leb_spec sz (length s + length swap)); [discriminate|].
  destruct (_ && _); intros E; injection E as <-; rewrite app_length; rewrite ?firstn_length; lia.
Qed.
Print Assumptions C45_fits_buffer.

(* A name shorter than the suffix yields NULL instead of the name with the new suffix. *)
Theorem C45_short_name_refuted : exists sz s suf swap,
  length s + length swap < sz /\ (forall base, s <> base ++ suf) /\ swapsuffix sz s suf swap = None.
Proof.
  exists 1024, [97%N], [46%N; 109%N; 121%N; 114%N], [46%N; 111%N]. split; [vm_compute; lia|]. split; [|reflexivity].
  intros base E. apply (f_equal (@length N)) in E. rewrite app_length in E. cbn in E. lia.
Qed.
Print Assumptions C45_short_name_refuted.

Example C45_example : swapsuffix 1024 [97;46;109]%N [46;109]%N [46;111]%N = Some (Some [97;46;111]%N).
Proof. reflexivity. Qed.
