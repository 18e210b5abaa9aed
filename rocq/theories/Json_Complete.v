(* Texts of the grammar are parsed, with the value the code gives to \u escapes. *)
From Verif Require Import Base ListX Utf_Spec Utf_Model Utf_Proofs Json_Spec Json_Model Json_Basic.
From Verif Require Str_Model Str_Proofs IntFmt_Model.
From Coq Require Import NArith ZArith Lia List.
Import ListNotations.
Open Scope N_scope.

Lemma eqb_n a b : a <> b -> (a =? b) = false.
Proof. apply N.eqb_neq. Qed.
Lemma unescaped_spec c : unescaped c = true <-> unescaped_char c.
Proof.
  unfold unescaped, unescaped_char. rewrite !Bool.orb_true_iff, !Bool.andb_true_iff, !N.eqb_eq, !N.leb_le. lia.
Qed.

(* strings *)
Lemma strloop_complete q s : chars uni16 q s -> forall fuel sb r d l o, (length q < fuel)%nat ->
  exists l' o', strloop fuel sb (mkp (q ++ 34 :: r) d l o) = Ok (sb ++ s) (mkp r d l' o').
Proof.
  intros C. induction C as [|c t s U C IH|e c t s I C IH|ds c t s L U C IH]; intros fuel sb r d l o F; (destruct fuel as [|fuel]; [lia|]).
  - cbn [app strloop rest]. rewrite takec_ascii by lia. cbn [bind N.eqb Pos.eqb]. rewrite app_nil_r. eexists _, _. reflexivity.
  - cbn [strloop rest]. pose proof (utf8_nonempty c) as NE. destruct U as ((U1 & U2) & U3 & U4).
    destruct ((utf8 c ++ t) ++ 34 :: r) as [|x y] eqn:E; [destruct (utf8 c); [cbn in NE; lia|discriminate E]|]. rewrite <- E, <- app_assoc.
    rewrite takec_utf8 by lia. cbn [bind]. rewrite (eqb_n c 92), (eqb_n c 34), (eqb_n c Badchar) by (auto; unfold Badchar; lia).
    replace (unescaped c) with true by (symmetry; apply unescaped_spec; repeat split; auto).
    destruct (IH fuel (sb ++ utf8 c) r d (fst (nextpos c l o)) (snd (nextpos c l o))) as (l' & o' & ->); [rewrite app_length in F; lia|].
    rewrite <- app_assoc. eauto.
  - cbn [app strloop rest]. rewrite takec_ascii by lia. cbn [bind]. rewrite N.eqb_refl. cbn [length] in F.
    assert (E : e < 128 /\ exists l1 o1, forall l o, bind (takec (mkp (e :: t ++ 34 :: r) d l o)) (fun c0 p => if c0 =? 34 then strloop fuel (sb ++ utf8 34) p else if c0 =? 92 then strloop fuel (sb ++ utf8 92) p else if c0 =? 47 then strloop fuel (sb ++ utf8 47) p else if c0 =? 98 then strloop fuel (sb ++ utf8 8) p else if c0 =? 110 then strloop fuel (sb ++ utf8 10) p else if c0 =? 102 then strloop fuel (sb ++ utf8 12) p else if c0 =? 114 then strloop fuel (sb ++ utf8 13) p else if c0 =? 116 then strloop fuel (sb ++ utf8 9) p else if c0 =? 117 then bind (unichar 4 0 p) (fun u p0 => match u with Some c1 => strloop fuel (sb ++ utf8 c1) p0 | None => fail p0 (Badesc 117) end) else fail p (Badesc c0)) = strloop fuel (sb ++ [c]) (mkp (t ++ 34 :: r) d (l1 l o) (o1 l o))).
    { cbn [escapes In] in I. repeat (destruct I as [I|I]; [injection I as <- <-; split; [lia|]; exists (fun l _ => l), (fun _ o => (o + 1)%Z); intros l1 o1; rewrite takec_ascii by lia; reflexivity|]). contradiction. }
    destruct E as (_ & l1 & o1 & E). rewrite E. destruct (IH fuel (sb ++ [c]) r d (l1 (fst (nextpos 92 l o)) (snd (nextpos 92 l o))) (o1 (fst (nextpos 92 l o)) (snd (nextpos 92 l o)))) as (l' & o' & ->); [lia|].
    rewrite <- app_assoc. eauto.
  - cbn [app strloop rest]. rewrite takec_ascii by lia. cbn [bind]. rewrite N.eqb_refl. rewrite takec_ascii by lia. cbn [bind N.eqb Pos.eqb].
    cbn [length] in F. rewrite app_length in F. rewrite <- app_assoc.
    match goal with |- context [unichar 4 0 (mkp _ _ ?l1 ?o1)] => destruct (unichar_complete ds c (t ++ 34 :: r) d l1 o1 U) as (l2 & o2 & ->) end. cbn [bind].
    destruct (IH fuel (sb ++ utf8 c) r d l2 o2) as (l' & o' & ->); [lia|]. rewrite <- app_assoc. eauto.
Qed.
Lemma jsonstr_complete s t r d l o : string uni16 s t -> exists l' o', jsonstr (mkp (t ++ r) d l o) = Ok s (mkp r d l' o').
Proof.
  intros (q & -> & C). unfold jsonstr. cbn [app]. rewrite <- app_assoc. cbn [app]. rewrite takec_ascii by lia. cbn [bind N.eqb Pos.eqb rest].
  destruct (strloop_complete q s C (S (length (q ++ 34 :: r))) [] r d (fst (nextpos 34 l o)) (snd (nextpos 34 l o))) as (l' & o' & ->); [rewrite app_length; lia|eauto].
Qed.

Lemma peek_ascii c r d l o : c < 128 -> peekc (mkp (c :: r) d l o) = c.
Proof. intros H. apply decode_ascii. exact H. Qed.

(* numbers: what follows a value in a text *)
Definition follow (r : list N) : Prop := match r with [] => True | c :: _ => space c \/ c = 44 \/ c = 93 \/ c = 125 end.
Lemma isdigit_spec c : isdigit c = true <-> digit c.
Proof. unfold isdigit, digit. rewrite Bool.andb_true_iff, !N.leb_le. reflexivity. Qed.
Lemma digitloop_complete t r ok : Forall digit t -> match r with [] => True | c :: _ => ~ digit c end ->
  digitloop (t ++ r) ok = (match t with [] => ok | _ => true end, r).
Proof.
  intros D. revert ok. induction D as [|c t H D IH]; intros ok NR.
  - destruct r as [|c r]; [reflexivity|]. cbn. destruct (isdigit c) eqn:E; [apply isdigit_spec in E; contradiction|reflexivity].
  - cbn. apply isdigit_spec in H. rewrite H. rewrite IH by exact NR. destruct t; reflexivity.
Qed.
Lemma follow_head r : follow r -> r = [] \/ exists c r', r = c :: r' /\ (c = 32 \/ c = 9 \/ c = 10 \/ c = 13 \/ c = 44 \/ c = 93 \/ c = 125).
Proof. destruct r as [|c r]; [auto|]. cbn. unfold space. intros H. right. exists c, r. split; [reflexivity|]. tauto. Qed.
Definition nodigit (r : list N) : Prop := match r with [] => True | c :: _ => ~ digit c end.
Lemma exp_complete e r : exponent e -> follow r -> numexp (e ++ r) = Some r /\ nodigit (e ++ r) /\ decode (e ++ r) <> 46 /\ (e ++ r = [] \/ exists c x, e ++ r = c :: x /\ c < 128).
Proof.
  intros [->|(c & s & d & -> & HC & HS & NE & D)] F.
  - cbn [app]. destruct (follow_head r F) as [->|(c & r' & -> & HC)].
    + repeat split; auto; cbn; try discriminate; auto.
    + assert (L : c < 128) by lia. unfold numexp, nodigit, digit. rewrite decode_ascii by exact L.
      repeat split; [|lia|lia|right; eauto]. replace ((c =? 101) || (c =? 69)) with false by (symmetry; apply Bool.orb_false_iff; rewrite !N.eqb_neq; lia). reflexivity.
  - assert (L : c < 128) by lia. cbn [app]. unfold numexp, nodigit, digit. rewrite decode_ascii by exact L. repeat split; [|lia|lia|right; eauto].
    replace ((c =? 101) || (c =? 69)) with true by (symmetry; apply Bool.orb_true_iff; rewrite !N.eqb_eq; lia). cbn [tl]. rewrite <- app_assoc.
    assert (ND : nodigit r) by (destruct (follow_head r F) as [->|(c' & r' & -> & HC')]; cbn; unfold digit; lia || exact Logic.I).
    assert (DL : digitloop (d ++ r) false = (true, r)) by (rewrite digitloop_complete; [destruct d; [congruence|reflexivity]|exact D|exact ND]).
    destruct d as [|x d]; [congruence|]. inversion D as [|? ? Dx D']; subst. unfold digit in Dx.
    destruct HS as [->|[->| ->]]; cbn [app] in *.
    + rewrite decode_ascii by lia. replace ((x =? 43) || (x =? 45)) with false by (symmetry; apply Bool.orb_false_iff; rewrite !N.eqb_neq; lia). rewrite DL. reflexivity.
    + rewrite decode_ascii by lia. cbn [N.eqb Pos.eqb orb tl]. rewrite DL. reflexivity.
    + rewrite decode_ascii by lia. cbn [N.eqb Pos.eqb orb tl]. rewrite DL. reflexivity.
Qed.
Lemma frac_complete f s : frac f -> nodigit s -> decode s <> 46 -> (s = [] \/ exists c x, s = c :: x /\ c < 128) ->
  numfrac (f ++ s) = Some s /\ nodigit (f ++ s).
Proof.
  intros [->|(d & -> & NE & D)] ND N46 A.
  - cbn [app]. split; [|exact ND]. unfold numfrac. destruct (N.eqb_spec (decode s) 46); [contradiction|reflexivity].
  - cbn [app]. unfold numfrac. rewrite decode_ascii by lia. cbn [N.eqb Pos.eqb tl]. rewrite digitloop_complete by assumption. split; [destruct d; [congruence|reflexivity]|]. cbn. unfold digit. lia.
Qed.
Lemma numspan_complete t r : number t -> follow r -> numspan (t ++ r) = Some r.
Proof.
  intros (m & i & f & e & -> & HM & HI & HF & HE) F. destruct (exp_complete e r HE F) as (E1 & E2 & E3 & E4). destruct (frac_complete f (e ++ r) HF E2 E3 E4) as (F1 & F2).
  rewrite <- !app_assoc. unfold numspan.
  assert (NI : numint (i ++ f ++ e ++ r) = Some (f ++ e ++ r) /\ decode (i ++ f ++ e ++ r) <> 45).
  { unfold numint. destruct HI as [->|((NE & D) & H0)].
    - cbn [app]. rewrite decode_ascii by lia. split; [reflexivity|lia].
    - destruct i as [|x i]; [congruence|]. inversion D as [|? ? Dx D']; subst. unfold digit in Dx. cbn [hd] in H0. cbn [app]. rewrite decode_ascii by lia.
      rewrite (eqb_n x 48) by exact H0. change (x :: i ++ f ++ e ++ r) with ((x :: i) ++ f ++ e ++ r). rewrite digitloop_complete by assumption. split; [reflexivity|lia]. }
  destruct NI as [NI1 NI2].
  assert (M : (if decode (m ++ i ++ f ++ e ++ r) =? 45 then tl (m ++ i ++ f ++ e ++ r) else m ++ i ++ f ++ e ++ r) = i ++ f ++ e ++ r).
  { destruct HM as [->| ->]; cbn [app]; [rewrite (eqb_n _ _ NI2); reflexivity|]. rewrite decode_ascii by lia. reflexivity. }
  rewrite M, NI1, F1. exact E1.
Qed.
Lemma number_head t : number t -> exists c x, t = c :: x /\ (digit c \/ c = 45).
Proof.
  intros (m & i & f & e & -> & HM & HI & _). destruct HM as [->| ->]; [|cbn; eauto].
  destruct HI as [->|((NE & D) & _)]; [cbn; exists 48, (f ++ e); split; [reflexivity|left; unfold digit; lia]|].
  destruct i as [|x i]; [congruence|]. inversion D; subst. cbn. eauto.
Qed.

(* values *)
Scheme json_ind2 := Minimality for json Sort Prop with elts_ind2 := Minimality for elts Sort Prop with membs_ind2 := Minimality for membs Sort Prop.
Combined Scheme json_all from json_ind2, elts_ind2, membs_ind2.
Definition nests {num} (a : list (elt num)) : N := fold_right (fun v m => N.max (nest v) m) 0 a.
Definition onests {num} (o : list (list N * elt num)) : N := fold_right (fun kv m => N.max (nest (snd kv)) m) 0 o.
Definition aempties {num} (a : list (elt num)) : N := fold_right (fun v m => empties v + m) 0 a.
Definition oempties {num} (o : list (list N * elt num)) : N := fold_right (fun kv m => empties (snd kv) + m) 0 o.

Lemma prefix_hit p pfx r : Str_Model.hasprefix (pfx ++ r) pfx = true -> rest p = pfx ++ r -> matchprefix p pfx = Some (mkp r (depth p) (line p) (off p)).
Proof. intros H E. unfold matchprefix. rewrite E, H, skipn_app_exact. reflexivity. Qed.
Lemma hasprefix_app pfx r : Str_Model.hasprefix (pfx ++ r) pfx = true.
Proof. apply Str_Proofs.hasprefix_spec. exists r. reflexivity. Qed.
Lemma prefix_miss p c x pfx y : rest p = c :: x -> pfx = y :: tl pfx -> c <> y -> matchprefix p pfx = None.
Proof.
  intros E P N. unfold matchprefix. destruct (Str_Model.hasprefix (rest p) pfx) eqn:H; [|reflexivity].
  apply Str_Proofs.hasprefix_spec in H as (r & H). rewrite E, P in H. cbn in H. congruence.
Qed.

Section P.
Context {num : Type} (read : list N -> option num).
Notation parseelt := (@parseelt num read). Notation arrloop := (@arrloop num read). Notation objloop := (@objloop num read).
Notation json := (json read uni16). Notation elts := (elts read uni16). Notation membs := (membs read uni16).

Lemma json_head v t : json v t -> exists c x, t = c :: x /\ c < 128 /\ ~ space c /\ c <> 125 /\ c <> 93.
Proof.
  intros J. inversion J; subst; try (eexists _, _; split; [reflexivity|]; unfold space; repeat split; lia).
  - destruct (number_head _ H) as (c & x & -> & HC). exists c, x. unfold digit, space in *. repeat split; lia.
  - destruct H as (q & -> & _). eexists _, _; split; [reflexivity|]; unfold space; repeat split; lia.
Qed.

Definition Pj (v : elt num) (t : list N) : Prop := forall w fuel r d l o, ws w -> (2 * length t < fuel)%nat -> follow r -> (0 <= d)%Z ->
  (d + Z.of_N (nest v) + Z.of_N (empties v) <= Maxdepth)%Z ->
  exists l' o', parseelt fuel (mkp (w ++ t ++ r) d l o) = Ok v (mkp r (d + Z.of_N (empties v)) l' o').
(* the loops do not mind whether white space before the first element is taken already *)
Definition Pe (a : list (elt num)) (t : list N) : Prop := forall fuel acc r d l o p, (2 * length t + 1 < fuel)%nat -> (0 <= d)%Z ->
  (d + Z.of_N (nests a) + Z.of_N (aempties a) <= Maxdepth)%Z -> takespace p = takespace (mkp (t ++ 93 :: r) d l o) ->
  exists l' o', arrloop fuel acc p = Ok (Arr (acc ++ a)) (mkp r (d + Z.of_N (aempties a) - 1) l' o').
Definition Pm (a : list (list N * elt num)) (t : list N) : Prop := forall fuel acc r d l o p, (2 * length t + 1 < fuel)%nat -> (0 <= d)%Z ->
  (d + Z.of_N (onests a) + Z.of_N (oempties a) <= Maxdepth)%Z -> takespace p = takespace (mkp (t ++ 125 :: r) d l o) -> (peekc p =? 125) = false ->
  exists l' o', objloop fuel acc p = Ok (Obj (acc ++ a)) (mkp r (d + Z.of_N (oempties a) - 1) l' o').

Lemma start w t r d l o : ws w -> (exists c x, t = c :: x /\ c < 128 /\ ~ space c /\ c <> 125 /\ c <> 93) ->
  exists l' o', takespace (mkp (w ++ t ++ r) d l o) = mkp (t ++ r) d l' o'.
Proof. intros W (c & x & -> & _ & NS & _). apply takespace_ws; [exact W|exact NS]. Qed.

Lemma follow_ws w r : ws w -> follow r -> follow (w ++ r).
Proof. intros [|c w' S W] F; [exact F|]. cbn. auto. Qed.
Lemma follow_c c r : c = 44 \/ c = 93 \/ c = 125 -> follow (c :: r).
Proof. cbn. tauto. Qed.
(* one element and the character behind it *)
Lemma elt_step w1 v t w2 c r fuel d l o : ws w1 -> json v t -> Pj v t -> ws w2 -> c = 44 \/ c = 93 \/ c = 125 -> (2 * length t < fuel)%nat -> (0 <= d)%Z ->
  (d + Z.of_N (nest v) + Z.of_N (empties v) <= Maxdepth)%Z ->
  exists p l' o', parseelt fuel (mkp (w1 ++ t ++ w2 ++ c :: r) d l o) = Ok v p /\ takec (takespace p) = Ok c (mkp r (d + Z.of_N (empties v)) l' o').
Proof.
  intros W1 J P W2 HC F D B. destruct (P w1 fuel (w2 ++ c :: r) d l o W1 F (follow_ws _ _ W2 (follow_c _ _ HC)) D B) as (l1 & o1 & E).
  destruct (takespace_ws w2 (c :: r) (d + Z.of_N (empties v)) l1 o1 W2) as (l2 & o2 & E2); [cbn; unfold space; lia|].
  eexists _, _, _. split; [exact E|]. rewrite E2. rewrite takec_ascii by lia. reflexivity.
Qed.
Lemma member_step w1 k kt w2 w3 v t w4 c r fuel d l o : ws w1 -> string uni16 k kt -> ws w2 -> ws w3 -> json v t -> Pj v t -> ws w4 -> c = 44 \/ c = 93 \/ c = 125 -> (2 * length t < fuel)%nat -> (0 <= d)%Z ->
  (d + Z.of_N (nest v) + Z.of_N (empties v) <= Maxdepth)%Z ->
  (peekc (mkp (w1 ++ kt ++ w2 ++ 58 :: w3 ++ t ++ w4 ++ c :: r) d l o) =? 125) = false /\
  exists p l' o', member (parseelt fuel) (mkp (w1 ++ kt ++ w2 ++ 58 :: w3 ++ t ++ w4 ++ c :: r) d l o) = Ok (k, v) p /\ takec (takespace p) = Ok c (mkp r (d + Z.of_N (empties v)) l' o').
Proof.
  intros W1 K W2 W3 J P W4 HC F D B.
  assert (NS : forall x, nospace (kt ++ x)) by (intros x; destruct K as (q & -> & _); cbn; unfold space; lia).
  split.
  { unfold peekc. cbn [rest]. apply eqb_n. destruct W1 as [|a w1 A W1]; [destruct K as (q & -> & _); cbn [app]; rewrite decode_ascii; lia|]. cbn [app]. unfold space in A. rewrite decode_ascii; lia. }
  unfold member. destruct (takespace_ws w1 (kt ++ w2 ++ 58 :: w3 ++ t ++ w4 ++ c :: r) d l o W1 (NS _)) as (l1 & o1 & ->).
  destruct (jsonstr_complete k kt (w2 ++ 58 :: w3 ++ t ++ w4 ++ c :: r) d l1 o1 K) as (l2 & o2 & ->). cbn [bind].
  destruct (takespace_ws w2 (58 :: w3 ++ t ++ w4 ++ c :: r) d l2 o2 W2) as (l3 & o3 & ->); [cbn; unfold space; lia|].
  rewrite takec_ascii by lia. cbn [bind N.eqb Pos.eqb].
  destruct (json_head _ _ J) as (x & t' & ET & TX).
  match goal with |- context [takespace (mkp _ d ?l4 ?o4)] => destruct (takespace_ws w3 (t ++ w4 ++ c :: r) d l4 o4 W3) as (l5 & o5 & ->) end; [rewrite ET; cbn; tauto|].
  destruct (elt_step [] v t w4 c r fuel d l5 o5) as (p & l6 & o6 & E1 & E2); auto; [constructor|]. cbn [app] in E1. rewrite E1. cbn [bind]. eauto 6.
Qed.
Lemma elts_head a t : elts a t -> exists w c x, t = w ++ c :: x /\ ws w /\ c < 128 /\ ~ space c /\ c <> 93.
Proof.
  intros E. inversion E; subst; destruct (json_head _ _ H0) as (c & x & -> & H3); exists w1, c; (eexists; split; [cbn [app]; reflexivity|]); tauto.
Qed.
Lemma membs_head o t : membs o t -> exists w x, t = w ++ 34 :: x /\ ws w.
Proof.
  intros E. inversion E; subst; destruct H0 as (q & -> & _); exists w1; (eexists; split; [cbn [app]; reflexivity|assumption]).
Qed.
Lemma takespace_idem p : takespace (takespace p) = takespace p.
Proof.
  destruct (takespace_inv p) as (w & _ & _ & NS & _). unfold takespace at 1. destruct (takespace p) as [s d l o]. cbn [rest depth line off] in *.
  destruct s as [|c s]; [reflexivity|]. cbn in NS. unfold space in NS. cbn [spaces].
  rewrite (eqb_n c 32), (eqb_n c 9), (eqb_n c 13), (eqb_n c 10) by lia. reflexivity.
Qed.
Lemma parseelt_takespace fuel p q : takespace p = takespace q -> parseelt fuel p = parseelt fuel q.
Proof. intros E. destruct fuel as [|fuel]; [reflexivity|]. rewrite !parseelt_S, E. reflexivity. Qed.
Lemma member_takespace f p q : takespace p = takespace q -> member (num := num) f p = member f q.
Proof. intros E. unfold member. rewrite E. reflexivity. Qed.
Lemma complete : (forall v t, json v t -> json v t /\ Pj v t) /\ (forall a t, elts a t -> elts a t /\ Pe a t) /\ (forall o t, membs o t -> membs o t /\ Pm o t).
Proof.
  apply json_all.
  - split; [constructor|]. intros w fuel r d l o W F FO D B. destruct fuel as [|fuel]; [lia|]. rewrite parseelt_S; cbv zeta.
    destruct (takespace_ws w ([110; 117; 108; 108] ++ r) d l o W) as (l1 & o1 & ->); [cbn; unfold space; lia|].
    unfold peekc. cbn [rest app]. rewrite decode_ascii by lia. cbn [N.eqb Pos.eqb].
    rewrite (prefix_miss _ 110 (117 :: 108 :: 108 :: r) [102; 97; 108; 115; 101] 102), (prefix_miss _ 110 (117 :: 108 :: 108 :: r) [116; 114; 117; 101] 116) by (reflexivity || lia).
    rewrite (prefix_hit _ [110; 117; 108; 108] r (hasprefix_app _ _)) by reflexivity. cbn [depth line off empties Z.of_N]. rewrite Z.add_0_r. eauto.
  - split; [constructor|]. intros w fuel r d l o W F FO D B. destruct fuel as [|fuel]; [lia|]. rewrite parseelt_S; cbv zeta.
    destruct (takespace_ws w ([116; 114; 117; 101] ++ r) d l o W) as (l1 & o1 & ->); [cbn; unfold space; lia|].
    unfold peekc. cbn [rest app]. rewrite decode_ascii by lia. cbn [N.eqb Pos.eqb].
    rewrite (prefix_miss _ 116 (114 :: 117 :: 101 :: r) [102; 97; 108; 115; 101] 102) by (reflexivity || lia).
    rewrite (prefix_hit _ [116; 114; 117; 101] r (hasprefix_app _ _)) by reflexivity. cbn [depth line off empties Z.of_N]. rewrite Z.add_0_r. eauto.
  - split; [constructor|]. intros w fuel r d l o W F FO D B. destruct fuel as [|fuel]; [lia|]. rewrite parseelt_S; cbv zeta.
    destruct (takespace_ws w ([102; 97; 108; 115; 101] ++ r) d l o W) as (l1 & o1 & ->); [cbn; unfold space; lia|].
    unfold peekc. cbn [rest app]. rewrite decode_ascii by lia. cbn [N.eqb Pos.eqb].
    rewrite (prefix_hit _ [102; 97; 108; 115; 101] r (hasprefix_app _ _)) by reflexivity. cbn [depth line off empties Z.of_N]. rewrite Z.add_0_r. eauto.
  - intros t n N R. split; [constructor; assumption|]. intros w fuel r d l o W F FO D B. destruct fuel as [|fuel]; [lia|]. rewrite parseelt_S; cbv zeta.
    destruct (number_head _ N) as (c & x & ET & HC). assert (A : c < 128) by (unfold digit in HC; lia).
    destruct (takespace_ws w (t ++ r) d l o W) as (l1 & o1 & ->); [rewrite ET; cbn; unfold space, digit in *; lia|].
    assert (ER : t ++ r = c :: x ++ r) by (rewrite ET; reflexivity).
    unfold peekc. cbn [rest]. rewrite ER. rewrite decode_ascii by exact A.
    rewrite (eqb_n c 123), (eqb_n c 91), (eqb_n c 34) by (unfold digit in HC; lia).
    rewrite (prefix_miss _ c (x ++ r) [102; 97; 108; 115; 101] 102), (prefix_miss _ c (x ++ r) [116; 114; 117; 101] 116), (prefix_miss _ c (x ++ r) [110; 117; 108; 108] 110) by (reflexivity || (unfold digit in HC; lia)).
    replace (isdigit c || (c =? 45)) with true by (symmetry; apply Bool.orb_true_iff; destruct HC as [HC| ->]; [left; apply isdigit_spec; exact HC|right; reflexivity]).
    unfold parsenum. cbn [rest]. rewrite <- ER, numspan_complete by assumption. rewrite app_length. replace (length t + length r - length r)%nat with (length t) by lia.
    rewrite firstn_app_exact, R. cbn [depth line off empties Z.of_N]. rewrite Z.add_0_r. eauto.
  - intros s t S. split; [constructor; assumption|]. intros w fuel r d l o W F FO D B. destruct fuel as [|fuel]; [lia|]. rewrite parseelt_S; cbv zeta.
    destruct (takespace_ws w (t ++ r) d l o W) as (l1 & o1 & ->); [destruct S as (q & -> & _); cbn; unfold space; lia|].
    destruct (jsonstr_complete s t r d l1 o1 S) as (l2 & o2 & E). unfold peekc. cbn [rest].
    replace (decode (t ++ r)) with 34 by (destruct S as (q & -> & _); cbn [app]; rewrite decode_ascii; lia). cbn [N.eqb Pos.eqb]. rewrite E. cbn [bind empties Z.of_N]. rewrite Z.add_0_r. eauto.
  - intros w' W'. split; [constructor; assumption|]. intros w fuel r d l o W F FO D B. destruct fuel as [|fuel]; [lia|]. rewrite parseelt_S; cbv zeta.
    destruct (takespace_ws w ((91 :: w' ++ [93]) ++ r) d l o W) as (l1 & o1 & ->); [cbn; unfold space; lia|]. cbn [app]. rewrite peek_ascii by lia. cbn [N.eqb Pos.eqb].
    rewrite takec_ascii by lia. cbn [bind N.eqb Pos.eqb negb]. unfold enter. cbn [rest depth line off]. cbn [nest empties fold_right] in B.
    destruct (Z.leb_spec (d + 1) Maxdepth) as [_|X]; [|cbn in B; lia]. rewrite <- app_assoc. cbn [app].
    match goal with |- context [takespace (mkp _ _ ?l4 ?o4)] => destruct (takespace_ws w' (93 :: r) (d + 1) l4 o4 W') as (l5 & o5 & ->) end; [cbn; unfold space; lia|].
    unfold peekc. cbn [rest]. rewrite decode_ascii by lia. cbn [N.eqb Pos.eqb]. rewrite takec_ascii by lia. cbn [bind empties]. eexists _, _. reflexivity.
  - intros a t E [_ P]. split; [constructor; assumption|]. intros w fuel r d l o W F FO D B. destruct fuel as [|fuel]; [lia|]. rewrite parseelt_S; cbv zeta.
    destruct (takespace_ws w ((91 :: t ++ [93]) ++ r) d l o W) as (l1 & o1 & ->); [cbn; unfold space; lia|]. cbn [app]. rewrite peek_ascii by lia. cbn [N.eqb Pos.eqb].
    rewrite takec_ascii by lia. cbn [bind N.eqb Pos.eqb negb]. unfold enter. cbn [rest depth line off].
    assert (NE : a <> []) by (inversion E; discriminate).
    assert (EM : empties (Arr a) = aempties a) by (destruct a; [congruence|reflexivity]). rewrite EM in *. change (nest (Arr a)) with (1 + nests a) in B.
    destruct (Z.leb_spec (d + 1) Maxdepth) as [_|X]; [|lia]. rewrite <- app_assoc. cbn [app].
    destruct (elts_head a t E) as (w1 & c & x & ET & W1 & A & NS & N93).
    match goal with |- context [takespace (mkp ?s ?dd ?l4 ?o4)] => set (q := mkp s dd l4 o4); destruct (takespace_ws w1 (c :: x ++ 93 :: r) dd l4 o4 W1) as (l5 & o5 & T) end; [exact NS|].
    assert (T' : takespace q = mkp (c :: x ++ 93 :: r) (d + 1) l5 o5) by (rewrite <- T; unfold q; rewrite ET, <- app_assoc; reflexivity).
    replace (peekc (takespace q) =? 93) with false by (rewrite T'; unfold peekc; cbn [rest]; rewrite decode_ascii by exact A; symmetry; apply eqb_n; exact N93).
    destruct (P fuel [] r (d + 1)%Z (fst (nextpos 91 l1 o1)) (snd (nextpos 91 l1 o1)) (takespace q)) as (l6 & o6 & E6).
    { cbn [length] in F. rewrite app_length in F. cbn [length] in F. lia. } { lia. } { lia. } { rewrite takespace_idem. reflexivity. }
    rewrite E6. exists l6, o6. cbn [app]. do 2 f_equal. lia.
  - intros w' W'. split; [constructor; assumption|]. intros w fuel r d l o W F FO D B. destruct fuel as [|fuel]; [lia|]. rewrite parseelt_S; cbv zeta.
    destruct (takespace_ws w ((123 :: w' ++ [125]) ++ r) d l o W) as (l1 & o1 & ->); [cbn; unfold space; lia|]. cbn [app]. rewrite peek_ascii by lia. cbn [N.eqb Pos.eqb].
    rewrite takec_ascii by lia. cbn [bind N.eqb Pos.eqb negb]. unfold enter. cbn [rest depth line off]. cbn [nest empties fold_right] in B.
    destruct (Z.leb_spec (d + 1) Maxdepth) as [_|X]; [|cbn in B; lia]. rewrite <- app_assoc. cbn [app].
    match goal with |- context [takespace (mkp _ _ ?l4 ?o4)] => destruct (takespace_ws w' (125 :: r) (d + 1) l4 o4 W') as (l5 & o5 & ->) end; [cbn; unfold space; lia|].
    unfold peekc. cbn [rest]. rewrite decode_ascii by lia. cbn [N.eqb Pos.eqb]. rewrite takec_ascii by lia. cbn [bind empties]. eexists _, _. reflexivity.
  - intros a t E [_ P]. split; [constructor; assumption|]. intros w fuel r d l o W F FO D B. destruct fuel as [|fuel]; [lia|]. rewrite parseelt_S; cbv zeta.
    destruct (takespace_ws w ((123 :: t ++ [125]) ++ r) d l o W) as (l1 & o1 & ->); [cbn; unfold space; lia|]. cbn [app]. rewrite peek_ascii by lia. cbn [N.eqb Pos.eqb].
    rewrite takec_ascii by lia. cbn [bind N.eqb Pos.eqb negb]. unfold enter. cbn [rest depth line off].
    assert (NE : a <> []) by (inversion E; discriminate).
    assert (EM : empties (Obj a) = oempties a) by (destruct a; [congruence|reflexivity]). rewrite EM in *. change (nest (Obj a)) with (1 + onests a) in B.
    destruct (Z.leb_spec (d + 1) Maxdepth) as [_|X]; [|lia]. rewrite <- app_assoc. cbn [app].
    destruct (membs_head a t E) as (w1 & x & ET & W1).
    match goal with |- context [takespace (mkp ?s ?dd ?l4 ?o4)] => set (q := mkp s dd l4 o4); destruct (takespace_ws w1 (34 :: x ++ 125 :: r) dd l4 o4 W1) as (l5 & o5 & T) end; [cbn; unfold space; lia|].
    assert (T' : takespace q = mkp (34 :: x ++ 125 :: r) (d + 1) l5 o5) by (rewrite <- T; unfold q; rewrite ET, <- app_assoc; reflexivity).
    assert (PK : (peekc (takespace q) =? 125) = false) by (rewrite T'; unfold peekc; cbn [rest]; rewrite decode_ascii by lia; reflexivity). rewrite PK.
    destruct (P fuel [] r (d + 1)%Z (fst (nextpos 123 l1 o1)) (snd (nextpos 123 l1 o1)) (takespace q)) as (l6 & o6 & E6).
    { cbn [length] in F. rewrite app_length in F. cbn [length] in F. lia. } { lia. } { lia. } { rewrite takespace_idem. reflexivity. } { exact PK. }
    rewrite E6. exists l6, o6. cbn [app]. do 2 f_equal. lia.
  - intros v t w1 w2 W1 J [_ P] W2. split; [constructor; assumption|]. intros fuel acc r d l o p F D B TP. destruct fuel as [|fuel]; [lia|]. rewrite arrloop_S.
    rewrite !app_length in F. cbn [nests aempties fold_right] in B. rewrite (parseelt_takespace _ _ _ TP). rewrite <- !app_assoc.
    destruct (elt_step w1 v t w2 93 r fuel d l o W1 J P W2) as (q & l1 & o1 & -> & E2); [auto|lia|lia|lia|]. cbn [bind]. rewrite E2. cbn [bind N.eqb Pos.eqb]. unfold exit. cbn [rest depth line off].
    exists l1, o1. cbn [aempties fold_right]. rewrite N.add_0_r. reflexivity.
  - intros v t w1 w2 a ts W1 J [_ P] W2 E [_ IH]. split; [constructor; assumption|]. intros fuel acc r d l o p F D B TP. destruct fuel as [|fuel]; [lia|]. rewrite arrloop_S.
    rewrite !app_length in F. cbn [length] in F. change (nests (v :: a)) with (N.max (nest v) (nests a)) in B. change (aempties (v :: a)) with (empties v + aempties a) in *.
    rewrite (parseelt_takespace _ _ _ TP). rewrite <- !app_assoc. cbn [app].
    destruct (elt_step w1 v t w2 44 (ts ++ 93 :: r) fuel d l o W1 J P W2) as (q & l1 & o1 & -> & E2); [auto|lia|lia|lia|]. cbn [bind]. rewrite E2. cbn [bind N.eqb Pos.eqb].
    destruct (IH fuel (acc ++ [v]) r (d + Z.of_N (empties v))%Z l1 o1 (mkp (ts ++ 93 :: r) (d + Z.of_N (empties v)) l1 o1)) as (l2 & o2 & ->); [lia|lia|lia|reflexivity|].
    exists l2, o2. rewrite <- app_assoc. cbn [app]. do 2 f_equal. lia.
  - intros k kt v t w1 w2 w3 w4 W1 K W2 W3 J [_ P] W4. split; [constructor; assumption|]. intros fuel acc r d l o p F D B TP PK. destruct fuel as [|fuel]; [lia|]. rewrite objloop_S.
    rewrite PK. rewrite !app_length in F. cbn [length] in F. rewrite !app_length in F. cbn [onests oempties fold_right snd] in B. rewrite (member_takespace _ _ _ TP). rewrite <- !app_assoc. cbn [app]. rewrite <- !app_assoc.
    destruct (member_step w1 k kt w2 w3 v t w4 125 r fuel d l o W1 K W2 W3 J P W4) as (_ & q & l1 & o1 & -> & E2); [auto|lia|lia|lia|]. cbn [bind]. rewrite E2. cbn [bind N.eqb Pos.eqb]. unfold exit. cbn [rest depth line off].
    exists l1, o1. cbn [oempties fold_right snd]. rewrite N.add_0_r. reflexivity.
  - intros k kt v t w1 w2 w3 w4 a ts W1 K W2 W3 J [_ P] W4 E [_ IH]. split; [constructor; assumption|]. intros fuel acc r d l o p F D B TP PK. destruct fuel as [|fuel]; [lia|]. rewrite objloop_S.
    rewrite PK. rewrite !app_length in F. cbn [length] in F. rewrite !app_length in F. cbn [length] in F. change (onests ((k, v) :: a)) with (N.max (nest v) (onests a)) in B. change (oempties ((k, v) :: a)) with (empties v + oempties a) in *.
    rewrite (member_takespace _ _ _ TP). rewrite <- !app_assoc. cbn [app]. rewrite <- !app_assoc. cbn [app].
    destruct (member_step w1 k kt w2 w3 v t w4 44 (ts ++ 125 :: r) fuel d l o W1 K W2 W3 J P W4) as (_ & q & l1 & o1 & -> & E2); [auto|lia|lia|lia|]. cbn [bind]. rewrite E2. cbn [bind N.eqb Pos.eqb].
    destruct (membs_head a ts E) as (w5 & x & ET & W5).
    destruct (IH fuel (acc ++ [(k, v)]) r (d + Z.of_N (empties v))%Z l1 o1 (mkp (ts ++ 125 :: r) (d + Z.of_N (empties v)) l1 o1)) as (l2 & o2 & ->); [lia|lia|lia|reflexivity| |].
    { unfold peekc. cbn [rest]. apply eqb_n. rewrite ET. destruct W5 as [|y w5 Y W5]; cbn [app]; [rewrite decode_ascii; lia|]. unfold space in Y. rewrite decode_ascii; lia. }
    exists l2, o2. rewrite <- app_assoc. cbn [app]. do 2 f_equal. lia.
Qed.
Theorem parse_complete v t : text read uni16 v t -> (Z.of_N (nest v) + Z.of_N (empties v) <= Maxdepth)%Z -> exists p, parse read t = Ok v p.
Proof.
  intros (w1 & b & w2 & -> & W1 & J & W2) B. unfold parse. destruct (proj1 complete v b J) as [_ P].
  destruct (P w1 (S (2 * length (w1 ++ b ++ w2))) w2 0%Z 1%Z 1%Z W1) as (l & o & ->); [rewrite !app_length; lia| |lia|lia|].
  { rewrite <- (app_nil_r w2). apply follow_ws; [exact W2|exact Logic.I]. }
  cbn [bind]. destruct (takespace_ws w2 [] (0 + Z.of_N (empties v)) l o W2 Logic.I) as (l1 & o1 & E). rewrite app_nil_r in E. rewrite E. cbn [rest]. eauto.
Qed.
End P.
