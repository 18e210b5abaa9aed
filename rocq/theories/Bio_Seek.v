(* Reading and writing one file, with a seek between the two. *)
From Verif Require Import Base ListX Utf_Model Utf_Spec Utf_Proofs Bio_Model Bio_Spec Bio_Calls Bio_Proofs Bio_Read Bio_Reads Bio_Write.
From Coq Require Import NArith Lia List.
Import ListNotations.
Open Scope nat_scope.

Lemma holds_unique old p s a b : holds old p s a -> holds old p s b -> a = b.
Proof.
  intros (A1 & A2 & A3 & A4) (B1 & B2 & B3 & B4). apply nth_error_ext. intros i.
  destruct (Nat.lt_ge_cases i (length a)) as [L|L].
  2:{ rewrite (proj2 (nth_error_None a i)) by lia. symmetry. apply nth_error_None. lia. }
  destruct (Nat.lt_ge_cases i p) as [H|H].
  - destruct (Nat.lt_ge_cases i (length old)) as [H1|H1]; [rewrite A2, B2 by lia; reflexivity|].
    destruct s as [|x s]; [lia|]. rewrite A3, B3 by (lia || discriminate). reflexivity.
  - destruct (Nat.lt_ge_cases i (p + length s)) as [H1|H1].
    + replace i with (p + (i - p)) by lia. rewrite A1, B1 by lia. reflexivity.
    + assert (i < length old) by (destruct s; cbn in *; lia). rewrite A2, B2 by lia. reflexivity.
Qed.
Lemma putat_bytes old p s : Forall isbyte old -> Forall isbyte s -> Forall isbyte (putat old p s).
Proof.
  intros O S. destruct s as [|x s]; [exact O|]. unfold putat, overwrite. apply Forall_app. split.
  - apply Forall_forall. intros b I.
    assert (I' : In b (old ++ repeat 0%N (p - length old))).
    { rewrite <- (firstn_skipn p (old ++ repeat 0%N (p - length old))). apply in_or_app. left. exact I. }
    apply in_app_or in I'. destruct I' as [I'|I'].
    + rewrite Forall_forall in O. auto.
    + apply repeat_spec in I'. subst b. unfold isbyte. lia.
  - apply Forall_app. split; [exact S|]. rewrite <- (firstn_skipn (p + length (x :: s)) old) in O. apply Forall_app in O. apply O.
Qed.

(* between two parts: the content the file is to have *)
Definition between (f : file) (c : list N) : Prop :=
  wf f /\ rd f = true /\ length (rbuf f) = Bufsz /\ calm f /\ Forall isbyte c /\ exists old p s, writer f old p s /\ putat old p s = c.

Lemma seek_spec f c off : between f c -> exists f', seek f off = Done (f', Ok off) /\ reader f' (skipn off c) /\ writer f' c off [] /\ wend f' = 0.
Proof.
  intros (W & R & L & (C1 & C2) & B & old & p & s & WR & P). unfold seek.
  destruct (flush_spec f old p s WR) as (g & b & E & (S1 & S2 & S3 & S4 & S5) & WG & QG). destruct (QG C2) as (QQ & ->). specialize (WG eq_refl).
  pose proof (flush_wend f old p s g WR E) as Z. rewrite E.
  destruct WG as (V1 & V2 & V3 & s1 & D1 & D2 & D3). rewrite Z in D3. cbn in D3. rewrite app_nil_r in D3. subst s1.
  assert (X : exists es, devseek (dv (setr g (rbuf g) 0 0)) off = (mkdev (data (dv g)) off es, SysOk off) /\
    Forall (fun ev => exists k, ev = Upto (S k)) es).
  { unfold devseek. cbn [dv setr]. unfold quiet in QQ. destruct (events (dv g)) as [|[k|e] es].
    - exists []. split; [reflexivity|constructor].
    - exists es. inversion QQ; subst. split; [reflexivity|assumption].
    - inversion QQ as [|? ? (k & K) ?]; discriminate. }
  destruct X as (es & X1 & X2). rewrite X1. eexists. split; [reflexivity|]. rewrite P in D1. split; [|split; [|exact Z]].
  - unfold reader, wf, calm, stream, held, rest, quiet. cbn. rewrite slice_empty. rewrite D1, S2, S1, S3, C1. cbn.
    split; [lia|]. split; [exact R|]. split; [exact L|]. split; [auto|]. split; [reflexivity|].
    rewrite <- (firstn_skipn off c) in B. apply Forall_app in B. apply B.
  - unfold writer. cbn. split; [exact V1|]. split; [exact V2|]. split; [exact V3|]. exists []. rewrite Z. cbn. split; [exact D1|]. split; [lia|reflexivity].
Qed.
Definition segshort (g : seg) : Prop := match g with SegRead _ os => Forall shortdelim os | SegWrite _ _ => True end.
Lemma session_spec l : forall f c r c', between f c -> Forall segshort l -> segs c l r c' ->
  exists f', session f l = Done (f', r) /\ between f' c'.
Proof.
  induction l as [|g l IH]; intros f c r c' BT SS H; inversion H; subst; inversion SS; subst; cbn [session part segshort] in *.
  - exists f. auto.
  - unfold part. destruct (seek_spec f c off BT) as (g1 & E & RD & WR & Z). rewrite E.
    destruct (calls_reads os g1 _ ans s' RD) as (g2 & E2 & RD2 & X1 & X2 & X3 & X4); auto. rewrite E2.
    destruct (IH g2 c r0 c') as (f' & EF & BF); auto.
    + destruct RD2 as (Y1 & Y2 & Y3 & Y4 & Y5 & Y6). destruct WR as (V1 & V2 & V3 & s1 & D1 & D2 & D3). unfold between.
      split; [exact Y1|]. split; [exact Y2|]. split; [exact Y3|]. split; [exact Y4|].
      split; [apply BT|]. exists c, (pos (dv g2)), []. split; [|reflexivity]. unfold writer. rewrite X1, X2, X3, X4, Z.
      split; [exact V1|]. split; [exact V2|]. split; [lia|]. exists []. cbn. rewrite Nat.add_0_r.
      destruct s1; [|discriminate]. cbn [putat] in D1. auto.
    + rewrite EF. exists f'. auto.
  - unfold part. destruct (seek_spec f c off BT) as (g1 & E & RD & WR & Z). rewrite E.
    destruct RD as (Y1 & Y2 & Y3 & (Y4 & Y5) & Y6 & Y7).
    destruct (puts_quiet os g1 c off [] WR) as (g2 & E2 & (S1 & S2 & S3 & S4 & S5) & WR2 & Q2); auto. rewrite E2. cbn [app] in WR2.
    assert (C1 : c1 = putat c off (concat (map bytes_of os))) by (eapply holds_unique; [eassumption|apply putat_holds]).
    destruct (IH g2 c1 r0 c') as (f' & EF & BF); auto.
    + unfold between, wf, calm. rewrite S1, S2, S3, S4, S5. split; [exact Y1|]. split; [exact Y2|]. split; [exact Y3|]. split; [auto|].
      split; [rewrite C1; apply putat_bytes; [apply BT|assumption]|]. exists c, off, (concat (map bytes_of os)). auto.
    + rewrite EF. exists f'. rewrite map_map. auto.
Qed.
Lemma mk_between dt p evs : quiet (mkdev dt p evs) -> Forall isbyte dt -> between (mk true true (mkdev dt p evs)) dt.
Proof.
  intros Q B. destruct (mk_reader true dt p evs Q B) as (Y1 & Y2 & Y3 & Y4 & Y5 & Y6). unfold between. split; [exact Y1|].
  split; [exact Y2|]. split; [exact Y3|]. split; [exact Y4|]. split; [exact B|]. exists dt, p, []. split; [apply mk_writer|reflexivity].
Qed.
Lemma between_close f c : between f c -> exists d, close f = Done (d, true) /\ data d = c.
Proof.
  intros (W & R & L & (C1 & C2) & B & old & p & s & WR & P). destruct (close_spec f old p s WR) as (d & b & E & D & Q).
  exists d. rewrite (Q C2) in *. split; [exact E|]. rewrite D by reflexivity. exact P.
Qed.
