(* What the parser accepts is in the grammar, for texts in UTF-8 without a comma before a closing brace; and it always
   answers. *)
From Verif Require Import Base ListX Utf_Spec Utf_Model Utf_Proofs Json_Spec Json_Model Json_Basic Json_Complete.
From Verif Require Str_Model Str_Proofs IntFmt_Model.
From Coq Require Import NArith ZArith Lia List.
Import ListNotations.
Open Scope N_scope.

Definition valid (s : list N) : Prop := exists cs, Forall (fun c => c < 0x200000) cs /\ s = utf8_string cs.
Lemma utf8_head_high c : 128 <= c -> exists x t, utf8 c = x :: t /\ 128 <= x.
Proof.
  intros H. unfold utf8. destruct (N.ltb_spec c 128); [lia|]. destruct (c <? 2048); [eexists _, _; split; [reflexivity|lia]|].
  destruct (c <? 65536); eexists _, _; (split; [reflexivity|lia]).
Qed.
Lemma valid_cases s : valid s -> s = [] \/ exists c r, s = utf8 c ++ r /\ c < 0x200000 /\ valid r.
Proof.
  intros (cs & F & ->). destruct F as [|c cs H F]; [left; reflexivity|]. right. exists c, (utf8_string cs). split; [reflexivity|]. split; [exact H|exists cs; auto].
Qed.
Lemma valid_cons c s : valid (c :: s) -> c < 128 -> valid s.
Proof.
  intros V L. apply valid_cases in V as [V|(x & r & E & Hx & V)]; [discriminate V|]. destruct (N.lt_ge_cases x 128) as [H|H].
  - rewrite utf8_ascii in E by exact H. cbn in E. injection E as -> ->. exact V.
  - destruct (utf8_head_high x H) as (y & t & E2 & Hy). rewrite E2 in E. cbn in E. injection E as -> ->. lia.
Qed.
Lemma valid_app_ascii t s : Forall (fun c => c < 128) t -> valid (t ++ s) -> valid s.
Proof. induction 1 as [|c t H F IH]; intros V; [exact V|]. apply IH. eapply valid_cons; [exact V|exact H]. Qed.
Lemma valid_head s c : valid s -> decode s = c -> c < 128 -> exists r, s = c :: r /\ valid r.
Proof.
  intros V D L. apply valid_cases in V as [->|(x & r & -> & Hx & V)]; [cbn in D; unfold Badchar in D; lia|].
  rewrite decode_utf8 in D by exact Hx. subst x. rewrite utf8_ascii by exact L. exists r. auto.
Qed.
Lemma takec_sound p c p' : valid (rest p) -> takec p = Ok c p' ->
  (rest p = [] /\ c = Badchar /\ p' = p) \/ (rest p = utf8 c ++ rest p' /\ c < 0x200000 /\ valid (rest p')).
Proof.
  intros V T. destruct p as [s d l o]. cbn [rest] in *. apply valid_cases in V as [->|(x & r & -> & Hx & V)].
  - cbn in T. injection T as <- <-. auto.
  - rewrite takec_utf8 in T by exact Hx. injection T as <- <-. right. cbn [rest]. auto.
Qed.
Lemma takec_sound_ascii p c p' : valid (rest p) -> takec p = Ok c p' -> c < 128 -> rest p = c :: rest p' /\ valid (rest p').
Proof.
  intros V T L. destruct (takec_sound p c p' V T) as [(_ & -> & _)|(E & _ & V')]; [unfold Badchar in L; lia|]. rewrite utf8_ascii in E by exact L. auto.
Qed.
Lemma space_ascii w : ws w -> Forall (fun c => c < 128) w.
Proof. apply Forall_impl. unfold space. intros; lia. Qed.
Lemma takespace_sound p : valid (rest p) -> exists w, rest p = w ++ rest (takespace p) /\ ws w /\ valid (rest (takespace p)).
Proof.
  intros V. destruct (takespace_inv p) as (w & E & W & _). exists w. split; [exact E|]. split; [exact W|]. rewrite E in V. apply valid_app_ascii in V; [exact V|]. apply space_ascii. exact W.
Qed.

(* strings *)
Lemma unichar_inv i c p u p' : valid (rest p) -> unichar (S i) c p = Ok (Some u) p' ->
  exists x n p1, rest p = x :: rest p1 /\ hexdigit x = Some n /\ valid (rest p1) /\ unichar i (c + n * 16) p1 = Ok (Some u) p'.
Proof.
  intros V H. cbn [unichar] in H. destruct (takec p) as [x p1| | |] eqn:T; try discriminate H. cbn [bind] in H. rewrite charval_hex in H.
  destruct (hexdigit x) as [n|] eqn:X; [|cbn in H; discriminate H]. destruct (hexdigit_lt _ _ X) as [_ L]. destruct (takec_sound_ascii _ _ _ V T L) as [E V1].
  destruct (Z.eqb_spec (Z.of_N n) (-1)) as [Y|_]; [lia|]. rewrite N2Z.id in H. exists x, n, p1. auto.
Qed.
Lemma unichar_sound p u p' : valid (rest p) -> unichar 4 0 p = Ok (Some u) p' -> exists ds, rest p = ds ++ rest p' /\ length ds = 4%nat /\ uni16 ds = Some u /\ valid (rest p').
Proof.
  intros V H. apply (unichar_inv 3) in H as (x1 & n1 & p1 & E1 & X1 & V1 & H); [|exact V]. apply (unichar_inv 2) in H as (x2 & n2 & p2 & E2 & X2 & V2 & H); [|exact V1].
  apply (unichar_inv 1) in H as (x3 & n3 & p3 & E3 & X3 & V3 & H); [|exact V2]. apply (unichar_inv 0) in H as (x4 & n4 & p4 & E4 & X4 & V4 & H); [|exact V3].
  cbn [unichar] in H. assert (EU : u = 0 + n1 * 16 + n2 * 16 + n3 * 16 + n4 * 16) by congruence. assert (EP : p' = p4) by congruence. clear H.
  exists [x1; x2; x3; x4]. rewrite E1, E2, E3, E4, EP. split; [reflexivity|]. split; [reflexivity|]. split; [|exact V4]. cbn [uni16]. rewrite X1, X2, X3, X4. f_equal. rewrite EU. clear. lia.
Qed.
Lemma strloop_sound fuel : forall sb p s p', valid (rest p) -> strloop fuel sb p = Ok s p' ->
  exists q s0, rest p = q ++ 34 :: rest p' /\ chars uni16 q s0 /\ s = sb ++ s0 /\ valid (rest p').
Proof.
  induction fuel as [|fuel IH]; intros sb p s p' V H; [discriminate H|]. cbn [strloop] in H.
  destruct (rest p) as [|y z] eqn:ER; [discriminate H|]. rewrite <- ER in *. clear y z ER.
  destruct (takec p) as [c p1| | |] eqn:T; try discriminate H. cbn [bind] in H.
  destruct (N.eqb_spec c 92) as [->|N92].
  { destruct (takec_sound_ascii _ _ _ V T ltac:(lia)) as [E V1]. destruct (takec p1) as [e p2| | |] eqn:T2; try discriminate H. cbn [bind] in H.
    assert (ESC : forall x, In (e, x) escapes -> e < 128 -> x < 128 -> strloop fuel (sb ++ utf8 x) p2 = Ok s p' -> exists q s0, rest p = q ++ 34 :: rest p' /\ chars uni16 q s0 /\ s = sb ++ s0 /\ valid (rest p')).
    { intros x I L LX HX. destruct (takec_sound_ascii _ _ _ V1 T2 L) as [E2 V2]. destruct (IH _ _ _ _ V2 HX) as (q & s0 & EQ & C & ES & VQ).
      exists (92 :: e :: q), (x :: s0). rewrite E, E2, EQ. split; [reflexivity|]. split; [apply C_escape; assumption|]. split; [|exact VQ]. rewrite ES, utf8_ascii by exact LX. rewrite <- app_assoc. reflexivity. }
    destruct (N.eqb_spec e 34) as [->|]; [apply (ESC 34); auto; try lia; cbn; tauto|].
    destruct (N.eqb_spec e 92) as [->|]; [apply (ESC 92); auto; try lia; cbn; tauto|].
    destruct (N.eqb_spec e 47) as [->|]; [apply (ESC 47); auto; try lia; cbn; tauto|].
    destruct (N.eqb_spec e 98) as [->|]; [apply (ESC 8); auto; try lia; cbn; tauto|].
    destruct (N.eqb_spec e 110) as [->|]; [apply (ESC 10); auto; try lia; cbn; tauto|].
    destruct (N.eqb_spec e 102) as [->|]; [apply (ESC 12); auto; try lia; cbn; tauto|].
    destruct (N.eqb_spec e 114) as [->|]; [apply (ESC 13); auto; try lia; cbn; tauto|].
    destruct (N.eqb_spec e 116) as [->|]; [apply (ESC 9); auto; try lia; cbn; tauto|]. clear ESC.
    destruct (N.eqb_spec e 117) as [->|]; [|discriminate H]. destruct (takec_sound_ascii _ _ _ V1 T2 ltac:(lia)) as [E2 V2].
    destruct (unichar 4 0 p2) as [u p3| | |] eqn:U; try discriminate H. cbn [bind] in H. destruct u as [u|]; [|discriminate H].
    destruct (unichar_sound _ _ _ V2 U) as (ds & E3 & L & X & V3). destruct (IH _ _ _ _ V3 H) as (q & s0 & EQ & C & ES & VQ).
    exists (92 :: 117 :: ds ++ q), (utf8 u ++ s0). rewrite E, E2, E3, EQ, <- app_assoc in *. cbn [app]. rewrite <- app_assoc. split; [reflexivity|]. split; [apply C_unicode; assumption|]. auto. }
  destruct (N.eqb_spec c 34) as [->|N34].
  { destruct (takec_sound_ascii _ _ _ V T ltac:(lia)) as [E V1]. injection H as <- <-. exists [], []. rewrite app_nil_r. repeat split; auto. constructor. }
  destruct (N.eqb_spec c Badchar) as [->|NB]; [discriminate H|]. destruct (unescaped c) eqn:U; [|discriminate H]. apply unescaped_spec in U.
  destruct (takec_sound _ _ _ V T) as [(_ & X & _)|(E & L & V1)]; [contradiction|]. destruct (IH _ _ _ _ V1 H) as (q & s0 & EQ & C & ES & VQ).
  exists (utf8 c ++ q), (utf8 c ++ s0). rewrite E, EQ, <- app_assoc in *. split; [reflexivity|]. split; [apply C_plain; assumption|]. auto.
Qed.
Lemma jsonstr_sound p s p' : valid (rest p) -> jsonstr p = Ok s p' -> exists t, rest p = t ++ rest p' /\ string uni16 s t /\ valid (rest p').
Proof.
  intros V H. unfold jsonstr in H. destruct (takec p) as [c p1| | |] eqn:T; try discriminate H. cbn [bind] in H. destruct (N.eqb_spec c 34) as [->|]; [|discriminate H].
  destruct (takec_sound_ascii _ _ _ V T ltac:(lia)) as [E V1]. destruct (strloop_sound _ _ _ _ _ V1 H) as (q & s0 & EQ & C & ES & VQ).
  exists (34 :: q ++ [34]). rewrite E, EQ. split; [cbn; rewrite <- app_assoc; reflexivity|]. split; [|exact VQ]. exists q. split; [reflexivity|]. cbn in ES. subst. exact C.
Qed.

(* numbers *)
Lemma digitloop_sound s : forall ok ok' s', digitloop s ok = (ok', s') -> exists t, s = t ++ s' /\ Forall digit t /\ (ok' = true -> ok = true \/ t <> []).
Proof.
  induction s as [|c s IH]; intros ok ok' s' H; cbn [digitloop] in H; [injection H as <- <-; exists []; repeat split; auto|].
  destruct (isdigit c) eqn:D; [|injection H as <- <-; exists []; repeat split; auto]. apply isdigit_spec in D. apply IH in H as (t & -> & F & _). exists (c :: t). repeat split; auto. intros _. right. discriminate.
Qed.
Lemma digits_sound s s' : digitloop s false = (true, s') -> exists t, s = t ++ s' /\ digits t.
Proof. intros H. apply digitloop_sound in H as (t & E & F & K). exists t. split; [exact E|]. split; [|exact F]. destruct (K eq_refl) as [X|X]; [discriminate X|exact X]. Qed.
Lemma digits_ascii t : Forall digit t -> Forall (fun c => c < 128) t.
Proof. apply Forall_impl. unfold digit. intros; lia. Qed.
Lemma numint_sound s s' : valid s -> numint s = Some s' -> exists t, s = t ++ s' /\ int t /\ valid s'.
Proof.
  intros V H. unfold numint in H. destruct (N.eqb_spec (decode s) 48) as [E|E].
  - destruct (valid_head s 48 V E ltac:(lia)) as (r & -> & VR). injection H as <-. exists [48]. repeat split; auto. left. reflexivity.
  - destruct (digitloop s false) as [[] r] eqn:D; [|discriminate H]. injection H as <-. apply digits_sound in D as (t & -> & NE & F). exists t. split; [reflexivity|].
    split; [|apply (valid_app_ascii t); [apply digits_ascii; exact F|exact V]]. right. split; [split; assumption|]. destruct t as [|x t]; [congruence|]. cbn. intros ->. apply E. apply decode_ascii. lia.
Qed.
Lemma numfrac_sound s s' : valid s -> numfrac s = Some s' -> exists t, s = t ++ s' /\ frac t /\ valid s'.
Proof.
  intros V H. unfold numfrac in H. destruct (N.eqb_spec (decode s) 46) as [E|E].
  - destruct (valid_head s 46 V E ltac:(lia)) as (r & -> & VR). cbn [tl] in H. destruct (digitloop r false) as [[] x] eqn:D; [|discriminate H]. injection H as <-. apply digits_sound in D as (t & -> & NE & F).
    exists (46 :: t). split; [reflexivity|]. split; [right; exists t; split; [reflexivity|split; assumption]|]. apply (valid_app_ascii t); [apply digits_ascii; exact F|exact VR].
  - injection H as <-. exists []. repeat split; auto. left. reflexivity.
Qed.
Lemma numexp_sound s s' : valid s -> numexp s = Some s' -> exists t, s = t ++ s' /\ exponent t /\ valid s'.
Proof.
  intros V H. unfold numexp in H. destruct ((decode s =? 101) || (decode s =? 69)) eqn:E; [|injection H as <-; exists []; repeat split; auto; left; reflexivity].
  apply Bool.orb_true_iff in E. rewrite !N.eqb_eq in E.
  destruct (valid_head s (decode s) V eq_refl) as (r & ES & VR); [destruct E as [-> | ->]; lia|]. set (c := decode s) in *. rewrite ES in H. cbn [tl] in H.
  assert (SG : exists sg r', r = sg ++ r' /\ (sg = [] \/ sg = [43] \/ sg = [45]) /\ valid r' /\ (if (decode r =? 43) || (decode r =? 45) then tl r else r) = r').
  { destruct ((decode r =? 43) || (decode r =? 45)) eqn:G; [|exists [], r; auto]. apply Bool.orb_true_iff in G. rewrite !N.eqb_eq in G.
    destruct (valid_head r (decode r) VR eq_refl) as (r' & ER & VR'); [destruct G as [-> | ->]; lia|]. exists [decode r], r'. split; [exact ER|]. split; [destruct G as [-> | ->]; auto|]. split; [exact VR'|]. rewrite ER. reflexivity. }
  destruct SG as (sg & r' & -> & HS & VR' & X). rewrite X in H. destruct (digitloop r' false) as [[] x] eqn:D; [|discriminate H]. injection H as <-. apply digits_sound in D as (t & -> & NE & F).
  exists (c :: sg ++ t). rewrite ES. split; [cbn; rewrite <- app_assoc; reflexivity|]. split; [right; exists c, sg, t; repeat split; auto|]. apply (valid_app_ascii t); [apply digits_ascii; exact F|exact VR'].
Qed.
Lemma numspan_sound s s' : valid s -> numspan s = Some s' -> exists t, s = t ++ s' /\ number t /\ valid s'.
Proof.
  intros V H. unfold numspan in H.
  assert (M : exists m r, s = m ++ r /\ (m = [] \/ m = [45]) /\ valid r /\ (if decode s =? 45 then tl s else s) = r).
  { destruct (N.eqb_spec (decode s) 45) as [E|E]; [|exists [], s; auto]. destruct (valid_head s 45 V E ltac:(lia)) as (r & -> & VR). exists [45], r. auto. }
  destruct M as (m & r & -> & HM & VR & X). rewrite X in H. destruct (numint r) as [r1|] eqn:E1; [|discriminate H]. apply numint_sound in E1 as (i & -> & HI & V1); [|exact VR].
  destruct (numfrac r1) as [r2|] eqn:E2; [|discriminate H]. apply numfrac_sound in E2 as (f & -> & HF & V2); [|exact V1].
  apply numexp_sound in H as (e & -> & HE & V3); [|exact V2]. exists (m ++ i ++ f ++ e). rewrite <- !app_assoc. split; [reflexivity|]. split; [exists m, i, f, e; auto 6|exact V3].
Qed.

Definition nocb (s : list N) : Prop := forall a b, s <> a ++ 44 :: 125 :: b.
Lemma nocb_app t s : nocb (t ++ s) -> nocb s.
Proof. intros H a b ->. apply (H (t ++ a) b). rewrite <- app_assoc. reflexivity. Qed.

Section S.
Context {num : Type} (read : list N -> option num).
Notation parseelt := (@parseelt num read). Notation arrloop := (@arrloop num read). Notation objloop := (@objloop num read).
Notation json := (json read uni16). Notation elts := (elts read uni16). Notation membs := (membs read uni16).

Lemma ws_app a b : ws a -> ws b -> ws (a ++ b).
Proof. unfold ws. intros; apply Forall_app; auto. Qed.
Lemma elts_ws w a t : ws w -> elts a t -> elts a (w ++ t).
Proof. intros W E. inversion E; subst; rewrite app_assoc; constructor; auto; apply ws_app; assumption. Qed.
Lemma membs_ws w a t : ws w -> membs a t -> membs a (w ++ t).
Proof. intros W E. inversion E; subst; rewrite app_assoc; constructor; auto; apply ws_app; assumption. Qed.
Lemma matchprefix_sound p pfx p' : matchprefix p pfx = Some p' -> rest p = pfx ++ rest p'.
Proof.
  unfold matchprefix. destruct (Str_Model.hasprefix (rest p) pfx) eqn:H; [|discriminate]. intros E. injection E as <-. cbn [rest]. apply Str_Proofs.hasprefix_spec in H as (r & ->). rewrite skipn_app_exact. reflexivity.
Qed.

Definition Sj fuel := forall p v p', valid (rest p) -> nocb (rest p) -> parseelt fuel p = Ok v p' ->
  exists w t, rest p = w ++ t ++ rest p' /\ ws w /\ json v t /\ valid (rest p').
Definition Se fuel := forall acc p v p', valid (rest p) -> nocb (rest p) -> arrloop fuel acc p = Ok v p' ->
  exists a t, v = Arr (acc ++ a) /\ elts a t /\ rest p = t ++ 93 :: rest p' /\ valid (rest p').
Definition Sm fuel := forall acc p v p', valid (rest p) -> nocb (rest p) -> peekc p <> 125 -> objloop fuel acc p = Ok v p' ->
  exists a t, v = Obj (acc ++ a) /\ membs a t /\ rest p = t ++ 125 :: rest p' /\ valid (rest p').

Lemma sj_step fuel : Se fuel -> Sm fuel -> Sj (S fuel).
Proof.
  intros HE HM p v p' V NC H. rewrite parseelt_S in H; cbv zeta in H. destruct (takespace_sound p V) as (w & EW & W & VW).
  rewrite EW in NC. apply nocb_app in NC. set (q := takespace p) in *. clearbody q.
  assert (OUT : forall t, rest q = t ++ rest p' -> json v t -> valid (rest p') -> exists w t, rest p = w ++ t ++ rest p' /\ ws w /\ json v t /\ valid (rest p')).
  { intros t E J V'. exists w, t. rewrite EW, E. auto. }
  destruct (N.eqb_spec (peekc q) 123) as [E1|E1].
  { destruct (takec q) as [c p1| | |] eqn:T; try discriminate H. cbn [bind] in H. destruct (N.eqb_spec c 123) as [->|]; [|discriminate H]. cbn [negb] in H.
    destruct (takec_sound_ascii _ _ _ VW T ltac:(lia)) as [ET V1]. unfold enter in H. cbn [depth] in H. destruct (depth p1 + 1 <=? Maxdepth)%Z; [|discriminate H].
    set (p2 := mkp (rest p1) (depth p1 + 1) (line p1) (off p1)) in *. destruct (takespace_sound p2 V1) as (w2 & EW2 & W2 & V2). change (rest p2) with (rest p1) in EW2.
    rewrite ET in NC. change (123 :: rest p1) with ([123] ++ rest p1) in NC. apply nocb_app in NC. rewrite EW2 in NC. apply nocb_app in NC.
    destruct (N.eqb_spec (peekc (takespace p2)) 125) as [E2|E2].
    - destruct (takec (takespace p2)) as [c p3| | |] eqn:T3; try discriminate H. cbn [bind] in H. injection H as <- <-.
      destruct (valid_head _ 125 V2 E2 ltac:(lia)) as (r & ER & VR). destruct (takespace p2) as [s2 d2 l2 o2] eqn:EP. cbn [rest] in *. subst s2. rewrite takec_ascii in T3 by lia. injection T3 as _ <-. cbn [rest] in *.
      apply (OUT (123 :: w2 ++ [125])); [rewrite ET, EW2; cbn; rewrite <- app_assoc; reflexivity|constructor; exact W2|exact VR].
    - destruct (HM _ _ _ _ V2 NC E2 H) as (a & t & -> & M & ER & V3). apply (OUT (123 :: (w2 ++ t) ++ [125])); [rewrite ET, EW2, ER; cbn; rewrite <- !app_assoc; reflexivity|apply J_obj; apply membs_ws; assumption|exact V3]. }
  destruct (N.eqb_spec (peekc q) 91) as [E2|E2].
  { destruct (takec q) as [c p1| | |] eqn:T; try discriminate H. cbn [bind] in H. destruct (N.eqb_spec c 91) as [->|]; [|discriminate H]. cbn [negb] in H.
    destruct (takec_sound_ascii _ _ _ VW T ltac:(lia)) as [ET V1]. unfold enter in H. cbn [depth] in H. destruct (depth p1 + 1 <=? Maxdepth)%Z; [|discriminate H].
    set (p2 := mkp (rest p1) (depth p1 + 1) (line p1) (off p1)) in *. destruct (takespace_sound p2 V1) as (w2 & EW2 & W2 & V2). change (rest p2) with (rest p1) in EW2.
    rewrite ET in NC. change (91 :: rest p1) with ([91] ++ rest p1) in NC. apply nocb_app in NC. rewrite EW2 in NC. apply nocb_app in NC.
    destruct (N.eqb_spec (peekc (takespace p2)) 93) as [E3|E3].
    - destruct (takec (takespace p2)) as [c p3| | |] eqn:T3; try discriminate H. cbn [bind] in H. injection H as <- <-.
      destruct (valid_head _ 93 V2 E3 ltac:(lia)) as (r & ER & VR). destruct (takespace p2) as [s2 d2 l2 o2] eqn:EP. cbn [rest] in *. subst s2. rewrite takec_ascii in T3 by lia. injection T3 as _ <-. cbn [rest] in *.
      apply (OUT (91 :: w2 ++ [93])); [rewrite ET, EW2; cbn; rewrite <- app_assoc; reflexivity|constructor; exact W2|exact VR].
    - destruct (HE _ _ _ _ V2 NC H) as (a & t & -> & M & ER & V3). apply (OUT (91 :: (w2 ++ t) ++ [93])); [rewrite ET, EW2, ER; cbn; rewrite <- !app_assoc; reflexivity|apply J_arr; apply elts_ws; assumption|exact V3]. }
  destruct (N.eqb_spec (peekc q) 34) as [E3|E3].
  { destruct (jsonstr q) as [s p1| | |] eqn:T; try discriminate H. cbn [bind] in H. injection H as <- <-. destruct (jsonstr_sound _ _ _ VW T) as (t & ET & S & V1). apply (OUT t); auto. constructor. exact S. }
  destruct (matchprefix q [102; 97; 108; 115; 101]) as [p1|] eqn:M1.
  { injection H as <- <-. apply matchprefix_sound in M1. apply (OUT [102; 97; 108; 115; 101]); [exact M1|constructor|]. rewrite M1 in VW. apply valid_app_ascii in VW; [exact VW|repeat constructor]. }
  destruct (matchprefix q [116; 114; 117; 101]) as [p1|] eqn:M2.
  { injection H as <- <-. apply matchprefix_sound in M2. apply (OUT [116; 114; 117; 101]); [exact M2|constructor|]. rewrite M2 in VW. apply valid_app_ascii in VW; [exact VW|repeat constructor]. }
  destruct (matchprefix q [110; 117; 108; 108]) as [p1|] eqn:M3.
  { injection H as <- <-. apply matchprefix_sound in M3. apply (OUT [110; 117; 108; 108]); [exact M3|constructor|]. rewrite M3 in VW. apply valid_app_ascii in VW; [exact VW|repeat constructor]. }
  destruct (isdigit (peekc q) || (peekc q =? 45)); [|discriminate H]. unfold parsenum in H. destruct (numspan (rest q)) as [r|] eqn:NS; [|discriminate H].
  destruct (numspan_sound _ _ VW NS) as (t & ET & N & VR). rewrite ET in H. rewrite app_length in H. replace (length t + length r - length r)%nat with (length t) in H by lia. rewrite firstn_app_exact in H.
  destruct (read t) as [n|] eqn:R; [|discriminate H]. injection H as <- <-. cbn [rest] in *. apply (OUT t); auto. constructor; assumption.
Qed.
Lemma se_step fuel : Sj fuel -> Se fuel -> Se (S fuel).
Proof.
  intros HJ HE acc p v p' V NC H. rewrite arrloop_S in H; cbv zeta in H. destruct (parseelt fuel p) as [x p1| | |] eqn:E1; try discriminate H. cbn [bind] in H.
  destruct (HJ _ _ _ V NC E1) as (w & t & ER & W & J & V1). destruct (takespace_sound p1 V1) as (w2 & EW & W2 & V2).
  destruct (takec (takespace p1)) as [c p2| | |] eqn:T; try discriminate H. cbn [bind] in H. destruct (N.eqb_spec c 44) as [->|N44].
  - destruct (takec_sound_ascii _ _ _ V2 T ltac:(lia)) as [ET V3].
    assert (NC3 : nocb (rest p2)). { rewrite ER, EW, ET in NC. apply nocb_app, nocb_app, nocb_app in NC. change (44 :: rest p2) with ([44] ++ rest p2) in NC. apply nocb_app in NC. exact NC. }
    destruct (HE _ _ _ _ V3 NC3 H) as (a & ts & -> & M & E3 & V4). exists (x :: a), (w ++ t ++ w2 ++ 44 :: ts).
    split; [rewrite <- app_assoc; reflexivity|]. split; [constructor; assumption|]. split; [|exact V4]. rewrite ER, EW, ET, E3, <- !app_assoc. reflexivity.
  - destruct (N.eqb_spec c 93) as [->|N93]; [|destruct (c =? Badchar); discriminate H]. injection H as <- <-. destruct (takec_sound_ascii _ _ _ V2 T ltac:(lia)) as [ET V3].
    exists [x], (w ++ t ++ w2). split; [reflexivity|]. split; [constructor; assumption|]. split; [|exact V3]. cbn [exit rest]. rewrite ER, EW, ET, <- !app_assoc. reflexivity.
Qed.
Lemma sm_step fuel : Sj fuel -> Sm fuel -> Sm (S fuel).
Proof.
  intros HJ HM acc p v p' V NC PK H. rewrite objloop_S in H; cbv zeta in H. rewrite (eqb_n _ _ PK) in H. unfold member in H.
  destruct (takespace_sound p V) as (w1 & EW1 & W1 & VW1). destruct (jsonstr (takespace p)) as [k p1| | |] eqn:K; try discriminate H. cbn [bind] in H.
  destruct (jsonstr_sound _ _ _ VW1 K) as (kt & EK & SK & V1). destruct (takespace_sound p1 V1) as (w2 & EW2 & W2 & VW2).
  destruct (takec (takespace p1)) as [c p2| | |] eqn:T2; try discriminate H. cbn [bind] in H. destruct (N.eqb_spec c 58) as [->|]; [|discriminate H]. destruct (takec_sound_ascii _ _ _ VW2 T2 ltac:(lia)) as [ET2 V2].
  destruct (takespace_sound p2 V2) as (w3 & EW3 & W3 & VW3). destruct (parseelt fuel (takespace p2)) as [x p3| | |] eqn:E3; try discriminate H. cbn [bind] in H.
  assert (ALL : rest p = (w1 ++ kt ++ w2 ++ 58 :: w3) ++ rest (takespace p2)) by (rewrite EW1, EK, EW2, ET2, EW3, <- !app_assoc; cbn; reflexivity).
  assert (NC2 : nocb (rest (takespace p2))) by (rewrite ALL in NC; apply nocb_app in NC; exact NC).
  destruct (HJ _ _ _ VW3 NC2 E3) as (w & t & ER & W & J & V3). destruct (takespace_sound p3 V3) as (w4 & EW4 & W4 & V4).
  destruct (takec (takespace p3)) as [c p4| | |] eqn:T; try discriminate H. cbn [bind] in H. destruct (N.eqb_spec c 44) as [->|N44].
  - destruct (takec_sound_ascii _ _ _ V4 T ltac:(lia)) as [ET V5]. rewrite ER, EW4, ET in NC2. apply nocb_app, nocb_app, nocb_app in NC2.
    assert (NC3 : nocb (rest p4)) by (change (44 :: rest p4) with ([44] ++ rest p4) in NC2; apply nocb_app in NC2; exact NC2).
    assert (PK4 : peekc p4 <> 125). { intros X. destruct (valid_head _ 125 V5 X ltac:(lia)) as (r & EX & _). rewrite EX in NC2. apply (NC2 [] r). reflexivity. }
    destruct (HM _ _ _ _ V5 NC3 PK4 H) as (a & ts & -> & M & E5 & V6). exists ((k, x) :: a), (w1 ++ kt ++ w2 ++ 58 :: (w3 ++ w) ++ t ++ w4 ++ 44 :: ts).
    split; [rewrite <- app_assoc; reflexivity|]. split; [constructor; auto; apply ws_app; assumption|]. split; [|exact V6]. rewrite ALL, ER, EW4, ET, E5, <- !app_assoc. cbn. rewrite <- !app_assoc. reflexivity.
  - destruct (N.eqb_spec c 125) as [->|N93]; [|destruct (c =? Badchar); discriminate H]. injection H as <- <-. destruct (takec_sound_ascii _ _ _ V4 T ltac:(lia)) as [ET V5].
    exists [(k, x)], (w1 ++ kt ++ w2 ++ 58 :: (w3 ++ w) ++ t ++ w4). split; [reflexivity|]. split; [constructor; auto; apply ws_app; assumption|]. split; [|exact V5]. cbn [exit rest]. rewrite ALL, ER, EW4, ET, <- !app_assoc. cbn. rewrite <- !app_assoc. reflexivity.
Qed.
Lemma sound_all fuel : Sj fuel /\ Se fuel /\ Sm fuel.
Proof.
  induction fuel as [|fuel (H1 & H2 & H3)]; [repeat split; repeat intro; discriminate|].
  split; [apply sj_step; assumption|]. split; [apply se_step; assumption|apply sm_step; assumption].
Qed.
Theorem parse_sound t v p : valid t -> nocb t -> parse read t = Ok v p -> text read uni16 v t.
Proof.
  intros V NC H. unfold parse in H. match type of H with bind (?e ?f ?q) _ = _ => destruct (e f q) as [x p1| | |] eqn:E; try discriminate H end. cbn [bind] in H.
  destruct (proj1 (sound_all _) (mkp t 0 1 1) _ _ V NC E) as (w & b & ER & W & J & V1). cbn [rest] in ER. destruct (takespace_sound p1 V1) as (w2 & EW & W2 & _).
  destruct (rest (takespace p1)) eqn:R; [|discriminate H]. injection H as <- _. exists w, b, w2. rewrite app_nil_r in EW. rewrite EW in ER. auto.
Qed.

(* the parser ends, and never aborts *)
Definition good {A} (n : nat) (m : res A) : Prop :=
  match m with Ok _ p => Forall isbyte (rest p) /\ (length (rest p) <= n)%nat | Er _ _ _ => True | _ => False end.
Lemma good_bind {A B} n m (x : res A) (k : A -> parser -> res B) : good n x -> (forall a p, Forall isbyte (rest p) -> (length (rest p) <= n)%nat -> good m (k a p)) -> good m (bind x k).
Proof. destruct x; cbn; intros G K; try exact G; try exact Logic.I. destruct G. apply K; assumption. Qed.
Lemma good_le {A} n m (x : res A) : good n x -> (n <= m)%nat -> good m x.
Proof. destruct x; cbn; intros G L; try exact G. destruct G. split; [assumption|lia]. Qed.
Lemma good_takec p : Forall isbyte (rest p) -> good (length (rest p)) (takec p).
Proof. intros B. destruct (takec_safe p B) as (c & p' & -> & _ & B' & L & _). cbn. auto. Qed.
Lemma takespace_safe p : Forall isbyte (rest p) -> Forall isbyte (rest (takespace p)) /\ (length (rest (takespace p)) <= length (rest p))%nat.
Proof. intros B. destruct (takespace_inv p) as (w & E & _). rewrite E in B. apply Forall_app in B as [_ B]. rewrite E, app_length. split; [exact B|lia]. Qed.
Lemma good_unichar i : forall c p, Forall isbyte (rest p) -> good (length (rest p)) (unichar i c p).
Proof.
  induction i as [|i IH]; intros c p B; cbn [unichar]; [cbn; auto|]. eapply good_bind; [apply good_takec; exact B|]. intros a p1 B1 L1. cbv zeta.
  destruct (IntFmt_Model.charval a 16 =? -1)%Z; [cbn; auto|]. eapply good_le; [apply IH; exact B1|exact L1].
Qed.
Lemma good_strloop fuel : forall sb p, Forall isbyte (rest p) -> (length (rest p) < fuel)%nat -> good (length (rest p)) (strloop fuel sb p).
Proof.
  induction fuel as [|fuel IH]; intros sb p B L; [lia|]. cbn [strloop]. destruct (rest p) as [|x y] eqn:ER; [exact Logic.I|]. rewrite <- ER in *.
  destruct (takec_safe p B) as (c & p1 & -> & _ & B1 & _ & L1 & _). specialize (L1 ltac:(congruence)). cbn [bind].
  destruct (c =? 92); [|repeat match goal with |- context [if ?b then _ else _] => destruct b end; try exact Logic.I; [cbn; split; [exact B1|lia]|eapply good_le; [apply IH; [exact B1|lia]|lia]]].
  eapply good_bind; [apply good_takec; exact B1|]. intros e p2 B2 L2.
  repeat match goal with |- context [if ?b then _ else _] => destruct b end; try exact Logic.I; try (eapply good_le; [apply IH; [exact B2|lia]|lia]).
  eapply good_bind; [apply good_unichar; exact B2|]. intros [u|] p3 B3 L3; [|exact Logic.I]. eapply good_le; [apply IH; [exact B3|lia]|lia].
Qed.
Lemma good_jsonstr p : Forall isbyte (rest p) -> good (length (rest p) - 1) (jsonstr p).
Proof.
  intros B. unfold jsonstr. destruct (takec_safe p B) as (c & p1 & -> & _ & B1 & _ & L1 & L2). cbn [bind]. destruct (N.eqb_spec c 34) as [->|]; [|exact Logic.I].
  assert (NE : rest p <> []) by (intros X; specialize (L2 X); discriminate L2). specialize (L1 NE). eapply good_le; [apply good_strloop; [exact B1|lia]|lia].
Qed.
Lemma numspan_shorter s s' : numspan s = Some s' -> exists t, t <> [] /\ s = t ++ s'.
Proof.
  unfold numspan. assert (TL : forall s : list N, exists t, s = t ++ tl s) by (intros [|x y]; [exists []|exists [x]]; reflexivity).
  assert (M : exists m, s = m ++ (if decode s =? 45 then tl s else s)) by (destruct (decode s =? 45); [apply TL|exists []; reflexivity]). destruct M as (m & M). set (r := if decode s =? 45 then tl s else s) in *. clearbody r.
  intros H. destruct (numint r) as [r1|] eqn:E1; [|discriminate H]. destruct (numfrac r1) as [r2|] eqn:E2; [|discriminate H].
  assert (X1 : exists t, t <> [] /\ r = t ++ r1).
  { unfold numint in E1. destruct (N.eqb_spec (decode r) 48) as [X|_]; [destruct r as [|x r]; [discriminate X|injection E1 as <-; exists [x]; split; [discriminate|reflexivity]]|].
    destruct (digitloop r false) as [[] z] eqn:D; [|discriminate E1]. injection E1 as <-. apply digits_sound in D as (t & E & NE & _). eauto. }
  assert (X2 : exists t, r1 = t ++ r2).
  { unfold numfrac in E2. destruct (decode r1 =? 46); [|injection E2 as <-; exists []; reflexivity]. destruct (digitloop (tl r1) false) as [[] z] eqn:D; [|discriminate E2]. injection E2 as <-.
    apply digits_sound in D as (t & E & _). destruct (TL r1) as (t0 & E0). exists (t0 ++ t). rewrite <- app_assoc, <- E. exact E0. }
  assert (X3 : exists t, r2 = t ++ s').
  { unfold numexp in H. destruct ((decode r2 =? 101) || (decode r2 =? 69)); [|injection H as <-; exists []; reflexivity]. destruct (TL r2) as (t0 & E0). set (z := tl r2) in *. clearbody z.
    assert (Y : exists t1, z = t1 ++ (if (decode z =? 43) || (decode z =? 45) then tl z else z)) by (destruct ((decode z =? 43) || (decode z =? 45)); [apply TL|exists []; reflexivity]). destruct Y as (t1 & Y).
    cbv zeta in H. set (y := if (decode z =? 43) || (decode z =? 45) then tl z else z) in *. clearbody y.
    destruct (digitloop y false) as [[] u] eqn:D; [|discriminate H]. injection H as <-. apply digits_sound in D as (t & E & _). exists (t0 ++ t1 ++ t). rewrite E0, Y, E, <- !app_assoc. reflexivity. }
  destruct X1 as (t1 & NE & ->), X2 as (t2 & ->), X3 as (t3 & ->). exists (m ++ t1 ++ t2 ++ t3). split; [destruct m; [destruct t1; [congruence|discriminate]|discriminate]|]. rewrite M, <- !app_assoc. reflexivity.
Qed.
Lemma good_all fuel : (forall p, Forall isbyte (rest p) -> (2 * length (rest p) < fuel)%nat -> good (length (rest p) - 1) (parseelt fuel p)) /\
  (forall acc p, Forall isbyte (rest p) -> (2 * length (rest p) + 1 < fuel)%nat -> good (length (rest p)) (arrloop fuel acc p)) /\
  (forall acc p, Forall isbyte (rest p) -> (2 * length (rest p) + 1 < fuel)%nat -> good (length (rest p)) (objloop fuel acc p)).
Proof.
  induction fuel as [|fuel (IJ & IE & IM)]; [repeat split; intros; lia|]. split; [|split].
  - intros p B L. rewrite parseelt_S; cbv zeta. destruct (takespace_safe p B) as (BQ & LQ). set (q := takespace p) in *. clearbody q.
    assert (FIRST : forall (k : N -> parser -> res (elt num)) c, peekc q = c -> c < 128 -> (forall a p1, Forall isbyte (rest p1) -> (length (rest p1) < length (rest q))%nat -> a = c -> good (length (rest q) - 1) (k a p1)) -> good (length (rest q) - 1) (bind (takec q) k)).
    { intros k c PK A K. assert (NE : rest q <> []) by (intros X; unfold peekc in PK; rewrite X in PK; cbn in PK; unfold Badchar in PK; lia).
      destruct (takec_safe q BQ) as (c' & p1 & T & _ & B1 & _ & L1 & _). rewrite T. cbn [bind]. apply K; [exact B1|apply L1; exact NE|].
      unfold takec in T. destruct (rest q) as [|y z] eqn:R; [congruence|]. unfold peekc in PK. rewrite R in PK. rewrite PK in T. destruct (length (y :: z) <? charlen c)%nat; [discriminate T|]. destruct (c =? 10); injection T as <- _; reflexivity. }
    apply (good_le (length (rest q) - 1)); [|lia].
    destruct (N.eqb_spec (peekc q) 123) as [E1|E1].
    { apply (FIRST _ 123 E1 ltac:(lia)). intros a p1 B1 L1 ->. cbn [N.eqb Pos.eqb negb]. unfold enter. cbn [depth]. destruct (depth p1 + 1 <=? Maxdepth)%Z; [|exact Logic.I].
      destruct (takespace_safe (mkp (rest p1) (depth p1 + 1) (line p1) (off p1)) B1) as (B2 & L2). cbn [rest] in L2. set (p2 := takespace _) in *. clearbody p2.
      destruct (peekc p2 =? 125); [eapply good_bind; [apply good_takec; exact B2|]; intros; cbn; split; [assumption|lia]|]. eapply good_le; [apply IM; [exact B2|lia]|lia]. }
    destruct (N.eqb_spec (peekc q) 91) as [E2|E2].
    { apply (FIRST _ 91 E2 ltac:(lia)). intros a p1 B1 L1 ->. cbn [N.eqb Pos.eqb negb]. unfold enter. cbn [depth]. destruct (depth p1 + 1 <=? Maxdepth)%Z; [|exact Logic.I].
      destruct (takespace_safe (mkp (rest p1) (depth p1 + 1) (line p1) (off p1)) B1) as (B2 & L2). cbn [rest] in L2. set (p2 := takespace _) in *. clearbody p2.
      destruct (peekc p2 =? 93); [eapply good_bind; [apply good_takec; exact B2|]; intros; cbn; split; [assumption|lia]|]. eapply good_le; [apply IE; [exact B2|lia]|lia]. }
    destruct (peekc q =? 34). { eapply good_bind; [apply good_jsonstr; exact BQ|]. intros; cbn. auto. }
    assert (PF : forall x pfx p1, matchprefix q (x :: pfx) = Some p1 -> Forall isbyte (rest p1) /\ (length (rest p1) <= length (rest q) - 1)%nat).
    { intros x pfx p1 M. apply matchprefix_sound in M. rewrite M in BQ. apply Forall_app in BQ as [_ BQ]. rewrite M, app_length. cbn [length]. split; [exact BQ|lia]. }
    destruct (matchprefix q [102; 97; 108; 115; 101]) as [p1|] eqn:M1; [cbn; apply (PF _ _ _ M1)|].
    destruct (matchprefix q [116; 114; 117; 101]) as [p1|] eqn:M2; [cbn; apply (PF _ _ _ M2)|].
    destruct (matchprefix q [110; 117; 108; 108]) as [p1|] eqn:M3; [cbn; apply (PF _ _ _ M3)|].
    destruct (isdigit (peekc q) || (peekc q =? 45)); [|exact Logic.I]. unfold parsenum. destruct (numspan (rest q)) as [r|] eqn:NS; [|exact Logic.I].
    destruct (read (firstn (length (rest q) - length r) (rest q))); [|exact Logic.I]. cbn [good rest]. apply numspan_shorter in NS as (t & NE & E). rewrite E in BQ. apply Forall_app in BQ as [_ BQ].
    split; [exact BQ|]. rewrite E, app_length. destruct t; [congruence|]. cbn [length]. lia.
  - intros acc p B L. rewrite arrloop_S; cbv zeta. specialize (IJ p B ltac:(lia)). destruct (Nat.eq_dec (length (rest p)) 0) as [Z|NZ].
    + (* nothing left: the element fails *)
      assert (X : exists e l o, parseelt fuel p = Er e l o).
      { destruct p as [s d l o]. cbn [rest] in *. destruct s; [|discriminate Z]. destruct fuel as [|fuel]; [lia|]. eexists _, _, _. reflexivity. }
      destruct X as (e & l & o & ->). exact Logic.I.
    + eapply good_bind; [exact IJ|]. intros e p1 B1 L1. destruct (takespace_safe p1 B1) as (B2 & L2). eapply good_bind; [apply good_takec; exact B2|]. intros c p2 B3 L3.
      destruct (c =? 44); [eapply good_le; [apply IE; [exact B3|lia]|lia]|]. destruct (c =? 93); [cbn; split; [exact B3|lia]|]. destruct (c =? Badchar); exact Logic.I.
  - intros acc p B L. rewrite objloop_S; cbv zeta. destruct (peekc p =? 125); [cbn; split; [exact B|lia]|]. unfold member.
    destruct (takespace_safe p B) as (B0 & L0). pose proof (good_jsonstr (takespace p) B0) as GS. destruct (jsonstr (takespace p)) as [k p1| | |] eqn:K; try exact GS; try exact Logic.I. cbn [bind]. destruct GS as [B1 L1].
    assert (ST : (length (rest p1) < length (rest (takespace p)))%nat).
    { destruct (rest (takespace p)) eqn:R; [|cbn [length] in *; lia]. exfalso. unfold jsonstr in K. destruct (takespace p) as [s d l o]. cbn [rest] in R. subst s. cbn in K. discriminate K. }
    destruct (takespace_safe p1 B1) as (B2 & L2). destruct (takec (takespace p1)) as [c p2| | |] eqn:T; pose proof (good_takec _ B2) as GT; rewrite T in GT; try exact GT; try exact Logic.I. cbn [bind]. destruct GT as [B3 L3].
    destruct (c =? 58); [|exact Logic.I]. destruct (takespace_safe p2 B3) as (B4 & L4). pose proof (IJ (takespace p2) B4 ltac:(lia)) as GJ. destruct (parseelt fuel (takespace p2)) as [v p3| | |]; try exact GJ; try exact Logic.I. cbn [bind]. destruct GJ as [B5 L5].
    destruct (takespace_safe p3 B5) as (B6 & L6). eapply good_bind; [apply good_takec; exact B6|]. intros c' p4 B7 L7.
    destruct (c' =? 44); [eapply good_le; [apply IM; [exact B7|lia]|lia]|]. destruct (c' =? 125); [cbn; split; [exact B7|lia]|]. destruct (c' =? Badchar); exact Logic.I.
Qed.
Theorem parse_answers t : Forall isbyte t -> (exists v p, parse read t = Ok v p) \/ (exists e l o, parse read t = Er e l o).
Proof.
  intros B. unfold parse. pose proof (proj1 (good_all (S (2 * length t))) (mkp t 0 1 1) B ltac:(cbn [rest]; lia)) as G. cbn [rest] in G.
  match goal with |- context [bind ?x _] => destruct x as [v p| | |] end; cbn in G; try contradiction; cbn [bind]; [|right; eauto].
  destruct (rest (takespace p)); [left; eauto|right; unfold fail; eauto].
Qed.
End S.
