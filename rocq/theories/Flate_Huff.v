(* mkhufc and readcode: canonical Huffman codes. *)
From Verif Require Import Base ListX Utf_Model Bio_Model Bio_Spec Bio_Calls Bio_Proofs Bio_Reads Bio_Write Flate_Spec Flate_Model Flate_Bits.
From Coq Require Import NArith Lia List.
Import ListNotations.
Open Scope nat_scope.

(* number of words shorter than l *)
Fixpoint below (lens : list nat) (l : nat) : nat :=
  match l with O => 0 | S l' => below lens l' + match l' with O => 0 | _ => having l' lens end end.

Lemma having_app l x y : having l (x ++ y) = having l x + having l y.
Proof. unfold having. rewrite filter_app, app_length. reflexivity. Qed.
Lemma having_one l x : having l [x] = if l =? x then 1 else 0.
Proof. unfold having. cbn. destruct (l =? x); reflexivity. Qed.
Lemma having_cons l x y : having l (x :: y) = (if l =? x then 1 else 0) + having l y.
Proof. rewrite <- having_one, <- having_app. reflexivity. Qed.
Lemma nth_upd (l : list nat) i v k : i < length l -> nth k (upd l i v) 0 = if k =? i then v else nth k l 0.
Proof. intros L. destruct (Nat.eqb_spec k i) as [->|N]; [apply nth_upd_same; exact L|apply nth_upd_other; auto]. Qed.

Lemma counts_loop lens : forall c, length c = 16 -> Forall (fun l => l <= 15) lens ->
  length (fold_left (fun c l => upd c l (nth l c 0 + 1)) lens c) = 16 /\
  forall l, l <= 15 -> nth l (fold_left (fun c l => upd c l (nth l c 0 + 1)) lens c) 0 = nth l c 0 + having l lens.
Proof.
  induction lens as [|x lens IH]; intros c L F; cbn [fold_left]; [split; [exact L|intros; unfold having; cbn; lia]|]. inversion F; subst.
  destruct (IH (upd c x (nth x c 0 + 1))) as [IH1 IH2]; [rewrite upd_length; exact L|assumption|]. split; [exact IH1|]. intros l LL.
  rewrite IH2 by exact LL. rewrite nth_upd by lia. rewrite having_cons. destruct (Nat.eqb_spec l x); subst; lia.
Qed.
Lemma indices_spec lens c k : forall l idx, l + k = 16 -> 1 <= l -> length idx = 16 -> nth 0 c 0 = 0 -> (forall i, 1 <= i <= 15 -> nth i c 0 = having i lens) ->
  (forall i, i < l -> nth i idx 0 = below lens i) ->
  length (indices k l c idx) = 16 /\ forall i, i <= 15 -> nth i (indices k l c idx) 0 = below lens i.
Proof.
  induction k as [|k IH]; intros l idx LK L1 LI C0 C1 I; cbn [indices].
  - split; [exact LI|]. intros i Hi. apply I. lia.
  - apply IH; auto; try lia; [rewrite upd_length; exact LI|]. intros i Hi. rewrite nth_upd by lia. destruct (Nat.eqb_spec i l) as [->|N]; [|apply I; lia].
    rewrite I by lia. destruct l as [|[|l]]; [lia| |]; cbn [below Nat.sub]; rewrite ?Nat.sub_0_r; [rewrite C0; reflexivity|].
    rewrite C1 by lia. reflexivity.
Qed.
Lemma below_mono lens l m : l <= m -> below lens l <= below lens m.
Proof. induction 1; [lia|]. cbn [below]. lia. Qed.
Lemma below_next lens l m : 1 <= l -> l < m -> below lens l + having l lens <= below lens m.
Proof. intros L1 L. pose proof (below_mono lens (S l) m L) as B. cbn [below] in B. destruct l; lia. Qed.
Lemma below_total lens m : below lens m <= length lens.
Proof.
  assert (A : forall m, below lens m + length (filter (fun x => m <=? x) lens) <= length lens).
  { clear m. induction m as [|m IH]; cbn [below].
    { clear. induction lens as [|x lens IH]; cbn [filter length]; [lia|]. destruct (0 <=? x); cbn [length]; lia. }
    assert (E : length (filter (fun x => m <=? x) lens) = having m lens + length (filter (fun x => S m <=? x) lens)).
    { clear. unfold having. induction lens as [|x lens IH]; cbn [filter]; [reflexivity|].
      destruct (Nat.leb_spec m x), (Nat.eqb_spec m x), (Nat.leb_spec (S m) x); cbn [length]; lia. }
    destruct m; [cbn [below] in *|]; lia. }
  specialize (A m). lia.
Qed.

Definition hc_ok (lens : list nat) (hc : hufc) : Prop :=
  (forall l, 1 <= l <= 15 -> nth l (count hc) 0 = having l lens) /\
  (forall l j, 1 <= l <= 15 -> j < having l lens ->
     exists s, nth_error (symbol hc) (below lens l + j) = Some s /\ nth_error lens s = Some l /\ having l (firstn s lens) = j).

Lemma place_spec lens : length lens <= MaxSyms -> Forall (fun l => l <= 15) lens -> forall todo done idx sy,
  lens = done ++ todo -> length idx = 16 -> length sy = MaxSyms ->
  (forall l, 1 <= l <= 15 -> nth l idx 0 = below lens l + having l done) ->
  (forall l j, 1 <= l <= 15 -> j < having l done ->
     exists s, nth_error sy (below lens l + j) = Some s /\ nth_error lens s = Some l /\ having l (firstn s lens) = j) ->
  forall l j, 1 <= l <= 15 -> j < having l lens ->
     exists s, nth_error (place todo (length done) idx sy) (below lens l + j) = Some s /\ nth_error lens s = Some l /\ having l (firstn s lens) = j.
Proof.
  intros LM F. induction todo as [|x todo IH]; intros done idx sy E LI LS I S; cbn [place].
  - rewrite app_nil_r in E. subst done. exact S.
  - assert (X15 : x <= 15). { rewrite E in F. apply Forall_app in F. destruct F as [_ F]. inversion F; assumption. }
    assert (LD : length (done ++ [x]) = length done + 1) by (rewrite app_length; reflexivity).
    destruct (Nat.eqb_spec x 0) as [->|X0].
    + rewrite <- LD. apply IH; auto; [rewrite <- app_assoc; exact E| |].
      * intros l L. rewrite having_app, having_one. destruct (Nat.eqb_spec l 0); [lia|]. rewrite I by exact L. lia.
      * intros l j L J. rewrite having_app, having_one in J. destruct (Nat.eqb_spec l 0); [lia|]. apply S; auto; lia.
    + rewrite <- LD. assert (HX : having x lens = having x done + 1 + having x todo).
      { rewrite E, having_app, having_cons, Nat.eqb_refl. lia. }
      assert (PB : nth x idx 0 < length sy).
      { rewrite I by lia. pose proof (below_next lens x 16 ltac:(lia) ltac:(lia)). pose proof (below_total lens 16). lia. }
      apply IH; [rewrite <- app_assoc; exact E|rewrite upd_length; exact LI|rewrite upd_length; exact LS| |].
      * intros l L. rewrite nth_upd by lia. rewrite having_app, having_one. destruct (Nat.eqb_spec l x) as [->|N]; rewrite I by lia; lia.
      * intros l j L J. rewrite nth_error_upd. rewrite having_app, having_one in J.
        destruct (Nat.eq_dec l x) as [->|N].
        -- rewrite Nat.eqb_refl in J. rewrite I by lia. destruct (Nat.eqb_spec (below lens x + having x done) (below lens x + j)) as [Q|Q].
           ++ assert (j = having x done) by lia. subst j. rewrite I in PB by lia. destruct (Nat.ltb_spec (below lens x + having x done) (length sy)); [|lia].
              exists (length done). split; [reflexivity|]. rewrite E. split; [rewrite nth_error_app2, Nat.sub_diag by lia; reflexivity|].
              rewrite firstn_app, Nat.sub_diag, firstn_all. cbn. rewrite app_nil_r. reflexivity.
           ++ apply S; auto; lia.
        -- destruct (Nat.eqb_spec l x); [congruence|]. rewrite I by lia.
           assert (HL : having l done <= having l lens) by (rewrite E, having_app; lia).
           destruct (Nat.eqb_spec (below lens x + having x done) (below lens l + j)) as [Q|Q]; [exfalso|apply S; auto; lia].
           destruct (lt_dec l x) as [LX|LX]; [pose proof (below_next lens l x ltac:(lia) LX)|pose proof (below_next lens x l ltac:(lia) ltac:(lia))]; lia.
Qed.
Lemma mkhufc_spec lens st : length lens <= MaxSyms -> Forall (fun l => l <= 15) lens -> exists hc, mkhufc lens st = FOk hc st /\ hc_ok lens hc.
Proof.
  intros L F. unfold mkhufc. rewrite (proj2 (Nat.leb_le _ _) L). cbn [andb].
  assert (FB : forallb (fun l => l <=? MaxBits) lens = true).
  { apply forallb_forall. rewrite Forall_forall in F. intros x X. apply Nat.leb_le. apply F. exact X. }
  rewrite FB. eexists. split; [reflexivity|].
  destruct (counts_loop lens (repeat 0 (MaxBits + 1)) eq_refl F) as [C1 C2]. fold (counts lens) in C1, C2.
  assert (C3 : forall l, 1 <= l <= 15 -> nth l (upd (counts lens) 0 0) 0 = having l lens).
  { intros l LL. rewrite nth_upd by lia. destruct (Nat.eqb_spec l 0); [lia|]. rewrite C2 by lia. rewrite nth_repeat. lia. }
  split; [exact C3|]. cbn [symbol]. destruct (indices_spec lens (upd (counts lens) 0 0) MaxBits 1 (repeat 0 (MaxBits + 1))) as [I1 I2]; auto; try reflexivity.
  { rewrite nth_upd by lia. reflexivity. }
  { intros i Hi. assert (i = 0) by lia. subst i. reflexivity. }
  apply (place_spec lens L F lens []); auto.
  - intros l LL. rewrite I2 by lia. unfold having at 1. cbn. lia.
  - intros l j _ J. unfold having in J. cbn in J. lia.
Qed.

(* codewords *)
Lemma msb_app x y : msb (x ++ y) = msb x * 2 ^ length y + msb y.
Proof.
  unfold msb. rewrite fold_left_app. generalize (fold_left (fun a b => 2 * a + Nat.b2n b) x 0) as a. induction y as [|c y IH] using rev_ind; intros a; [cbn; lia|].
  rewrite !fold_left_app, IH, app_length. cbn [fold_left length]. rewrite Nat.add_1_r. cbn [Nat.pow]. lia.
Qed.
Lemma msb_snoc x c : msb (x ++ [c]) = msb x * 2 + Nat.b2n c.
Proof. rewrite msb_app. cbn. lia. Qed.
Lemma msb_bound x : msb x < 2 ^ length x.
Proof. induction x as [|c x IH] using rev_ind; [cbn; lia|]. rewrite msb_snoc, app_length, Nat.add_1_r. cbn [Nat.pow length]. destruct c; cbn [Nat.b2n]; lia. Qed.
Lemma next_code_grow lens l d : 1 <= l -> (next_code lens l + having l lens) * 2 ^ (S d) <= next_code lens (l + S d).
Proof.
  intros L. induction d as [|d IH].
  - rewrite Nat.add_1_r. cbn [next_code]. destruct l; [lia|]. cbn [Nat.pow]. lia.
  - rewrite Nat.add_succ_r. cbn [next_code]. change (2 ^ S (S d)) with (2 * 2 ^ S d). destruct (l + S d); nia.
Qed.
Lemma prefix_not lens pre x : 1 <= length pre -> x <> [] -> next_code lens (length (pre ++ x)) <= msb (pre ++ x) ->
  next_code lens (length pre) + having (length pre) lens <= msb pre.
Proof.
  intros L X H. rewrite msb_app, app_length in H. destruct x as [|c x]; [congruence|]. pose proof (next_code_grow lens (length pre) (length x) L) as G.
  pose proof (msb_bound (c :: x)) as B. cbn [length] in H, B, G. assert (0 < 2 ^ S (length x)) by (apply Nat.neq_0_lt_0, Nat.pow_nonzero; lia).
  set (q := 2 ^ S (length x)) in *. nia.
Qed.
Lemma having_firstn_lt lens l s t : s < t -> nth_error lens s = Some l -> having l (firstn s lens) < having l (firstn t lens).
Proof.
  intros L H. apply nth_error_split in H. destruct H as (a & b & -> & <-). rewrite firstn_app, Nat.sub_diag, firstn_all. cbn [firstn]. rewrite app_nil_r.
  rewrite firstn_app, firstn_all2 by lia. replace (t - length a) with (S (t - length a - 1)) by lia. cbn [firstn]. rewrite having_app, having_cons, Nat.eqb_refl. lia.
Qed.
Lemma symbol_unique lens l s t : nth_error lens s = Some l -> nth_error lens t = Some l -> having l (firstn s lens) = having l (firstn t lens) -> s = t.
Proof.
  intros H1 H2 E. destruct (lt_eq_lt_dec s t) as [[L| ->]|L]; auto; exfalso.
  - pose proof (having_firstn_lt lens l s t L H1). lia.
  - pose proof (having_firstn_lt lens l t s L H2). lia.
Qed.
Lemma codeword_lt lens s w : codeword lens s w -> s < length lens.
Proof. intros (l & H & _). apply nth_error_Some. congruence. Qed.
Lemma codeword_range lens s w l : codeword lens s w -> l = length w ->
  next_code lens l <= msb w < next_code lens l + having l lens.
Proof.
  intros (l' & H & L1 & LW & M) ->. rewrite LW. rewrite M. split; [lia|]. apply nth_error_split in H. destruct H as (a & b & -> & <-).
  rewrite firstn_app, Nat.sub_diag, firstn_all. cbn [firstn]. rewrite app_nil_r, having_app, having_cons, Nat.eqb_refl. lia.
Qed.

Section Read.
Variables (old : list N) (p : nat) (lens : list nat) (hc : hufc).
Hypothesis HC : hc_ok lens hc.
Hypothesis F15 : Forall (fun l => l <= 15) lens.

Lemma readcode_loop_spec k : forall len st b o w code first index, ok old p st b o -> len + k = 16 -> len = S (length w) ->
  code = 2 * msb w -> first = next_code lens len -> index = below lens len -> first <= code ->
  (exists x s b' st', b = x ++ b' /\ x <> [] /\ codeword lens s (w ++ x) /\ readcode_loop k len hc code first index st = FOk s st' /\ ok old p st' b' o) \/
  ((exists e, readcode_loop k len hc code first index st = FErr e) /\ forall x s b', b = x ++ b' -> x <> [] -> ~ codeword lens s (w ++ x)).
Proof.
  induction k as [|k IH]; intros len st b o w code first index O LK LW EC EF EI FC; cbn [readcode_loop].
  - right. split; [unfold fail; eauto|]. intros x s b' _ NX (l & H1 & H2 & H3 & _). rewrite Forall_forall in F15.
    specialize (F15 l (nth_error_In _ _ H1)). rewrite app_length in H3. destruct x; [congruence|]. cbn in H3. lia.
  - unfold bind. destruct (bits_spec old p 1 st b o O) as [(x1 & b1 & st1 & L1 & E1 & R1 & O1)|(LB & e & R1)]; [lia| |].
    2:{ rewrite R1. right. split; [eauto|]. intros x s b' E NX. destruct x; [congruence|]. rewrite E in LB. cbn in LB. lia. }
    rewrite R1. destruct x1 as [|c [|? ?]]; cbn in L1; try lia. cbn [lsb]. replace (Nat.b2n c + 2 * 0) with (Nat.b2n c) by lia.
    assert (EM : code + Nat.b2n c = msb (w ++ [c])) by (rewrite msb_snoc; lia).
    assert (LW' : length (w ++ [c]) = len) by (rewrite app_length; cbn; lia).
    destruct HC as [HC1 HC2]. rewrite HC1 by lia. subst first index.
    destruct (Nat.ltb_spec (code + Nat.b2n c) (next_code lens len + having len lens)) as [X|X].
    + left. destruct (Nat.ltb_spec (code + Nat.b2n c) (next_code lens len)); [lia|].
      destruct (HC2 len (code + Nat.b2n c - next_code lens len)) as (s & S1 & S2 & S3); [lia|lia|]. rewrite S1.
      exists [c], s, b1, st1. split; [exact E1|]. split; [discriminate|]. split; [|split; [reflexivity|exact O1]].
      exists len. split; [exact S2|]. split; [lia|]. split; [exact LW'|]. lia.
    + destruct (IH (len + 1) st1 b1 o (w ++ [c]) ((code + Nat.b2n c) * 2) ((next_code lens len + having len lens) * 2) (below lens len + having len lens))
        as [(x & s & b' & st' & A1 & A2 & A3 & A4 & A5)|[(e & A1) A2]]; auto; try lia.
      { rewrite Nat.add_1_r. cbn [next_code]. destruct len; lia. }
      { rewrite Nat.add_1_r. cbn [below]. destruct len; lia. }
      * left. exists (c :: x), s, b', st'. rewrite <- app_assoc in A3. split; [rewrite E1, A1; reflexivity|]. split; [discriminate|]. auto.
      * right. split; [eauto|]. intros x s b' E NX CW. destruct x as [|c' x]; [congruence|]. rewrite E1 in E. cbn in E. injection E as <- E.
        destruct x as [|c2 x].
        -- pose proof (codeword_range lens s (w ++ [c]) len CW ltac:(lia)). lia.
        -- apply (A2 (c2 :: x) s b' E); [discriminate|]. rewrite <- app_assoc. exact CW.
Qed.
(* it reads the one word the bits begin with, or fails if they begin with none *)
Lemma readcode_spec st b o : ok old p st b o ->
  (exists w s b' st', b = w ++ b' /\ codeword lens s w /\ readcode hc st = FOk s st' /\ ok old p st' b' o) \/
  ((exists e, readcode hc st = FErr e) /\ forall w s b', b = w ++ b' -> ~ codeword lens s w).
Proof.
  intros O. unfold readcode. destruct (readcode_loop_spec MaxBits 1 st b o [] 0 0 0 O) as [(x & s & b' & st' & A1 & A2 & A3 & A4 & A5)|[A1 A2]]; auto.
  - left. exists x, s, b', st'. auto.
  - right. split; [exact A1|]. intros w s b' E CW. apply (A2 w s b' E); [|exact CW]. intros ->. destruct CW as (l & _ & L1 & L2 & _). cbn in L2. lia.
Qed.
End Read.

(* words are unambiguous, whatever the lengths *)
Lemma codeword_unique lens s t w v b c : codeword lens s w -> codeword lens t v -> w ++ b = v ++ c -> s = t /\ w = v.
Proof.
  intros W V E.
  assert (NP : forall s t w x, codeword lens s w -> codeword lens t (w ++ x) -> x = []).
  { clear. intros s t w x CW CV. destruct x as [|c x]; [reflexivity|exfalso]. pose proof (codeword_range _ _ _ _ CW eq_refl). pose proof (codeword_range _ _ _ _ CV eq_refl).
    assert (1 <= length w) by (destruct CW as (l & _ & ? & ? & _); lia). pose proof (prefix_not lens w (c :: x) ltac:(assumption) ltac:(discriminate) ltac:(lia)). lia. }
  assert (EW : w = v).
  { destruct (le_lt_dec (length w) (length v)) as [L|L].
    - assert (exists x, v = w ++ x) as (x & ->).
      { exists (skipn (length w) v). rewrite <- (firstn_skipn (length w) v) at 1. f_equal.
        transitivity (firstn (length w) (v ++ c)); [rewrite firstn_app; replace (length w - length v) with 0 by lia; cbn; rewrite app_nil_r; reflexivity|].
        rewrite <- E, firstn_app, Nat.sub_diag, firstn_all. cbn. apply app_nil_r. }
      rewrite (NP s t w x W V), app_nil_r. reflexivity.
    - assert (exists x, w = v ++ x) as (x & ->).
      { exists (skipn (length v) w). rewrite <- (firstn_skipn (length v) w) at 1. f_equal.
        transitivity (firstn (length v) (w ++ b)); [rewrite firstn_app; replace (length v - length w) with 0 by lia; cbn; rewrite app_nil_r; reflexivity|].
        rewrite E, firstn_app, Nat.sub_diag, firstn_all. cbn. apply app_nil_r. }
      rewrite (NP t s v x V W), app_nil_r. reflexivity. }
  subst v. split; [|reflexivity]. destruct W as (l & W1 & W2 & W3 & W4), V as (l' & V1 & V2 & V3 & V4). assert (EL : l' = l) by lia. rewrite EL in V1, V4.
  apply (symbol_unique lens l); [exact W1|exact V1|]. rewrite W4 in V4. clear - V4. apply Nat.add_cancel_l in V4. exact V4.
Qed.
