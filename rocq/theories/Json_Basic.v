(* Facts about the pieces of the parser of Json_Model. *)
From Verif Require Import Base ListX Utf_Spec Utf_Model Utf_Proofs Json_Spec Json_Model.
From Verif Require Str_Model Str_Proofs Str_Spec IntFmt_Model.
From Coq Require Import NArith ZArith Lia List.
Import ListNotations.
Open Scope N_scope.

Lemma decode_utf8 c r : c < 0x200000 -> decode (utf8 c ++ r) = c.
Proof. intros H. unfold decode. rewrite charstep_utf8 by exact H. reflexivity. Qed.
Lemma utf8_ascii c : c < 128 -> utf8 c = [c].
Proof. intros H. unfold utf8. destruct (N.ltb_spec c 128); [reflexivity|lia]. Qed.
Lemma decode_ascii c r : c < 128 -> decode (c :: r) = c.
Proof. intros H. change (c :: r) with ([c] ++ r). rewrite <- (utf8_ascii c H). apply decode_utf8. lia. Qed.

Definition nextpos (c : N) (l o : Z) : Z * Z := if c =? 10 then ((l + 1)%Z, 1%Z) else (l, (o + 1)%Z).
Lemma takec_utf8 c r d l o : c < 0x200000 ->
  takec (mkp (utf8 c ++ r) d l o) = Ok c (mkp r d (fst (nextpos c l o)) (snd (nextpos c l o))).
Proof.
  intros H. unfold takec. cbn [rest depth line off]. rewrite decode_utf8 by exact H. pose proof (utf8_nonempty c) as NE.
  destruct (utf8 c ++ r) as [|x t] eqn:E; [destruct (utf8 c); [cbn in NE; lia|discriminate E]|]. rewrite <- E.
  rewrite charlen_utf8 by exact H. destruct (Nat.ltb_spec (length (utf8 c ++ r)) (length (utf8 c))) as [X|_]; [rewrite app_length in X; lia|].
  rewrite skipn_app_exact. unfold nextpos. destruct (c =? 10); reflexivity.
Qed.
Lemma takec_ascii c r d l o : c < 128 ->
  takec (mkp (c :: r) d l o) = Ok c (mkp r d (fst (nextpos c l o)) (snd (nextpos c l o))).
Proof. intros H. change (c :: r) with ([c] ++ r). rewrite <- (utf8_ascii c H). apply takec_utf8. lia. Qed.

(* taking a character never aborts and makes progress *)
Lemma takec_safe p : Forall isbyte (rest p) -> exists c p', takec p = Ok c p' /\ depth p' = depth p /\ Forall isbyte (rest p') /\
  (length (rest p') <= length (rest p))%nat /\ (rest p <> [] -> (length (rest p') < length (rest p))%nat) /\ (rest p = [] -> c = Badchar).
Proof.
  intros B. unfold takec. destruct (rest p) as [|x t] eqn:E; [exists Badchar, p; rewrite E; repeat split; auto; try lia; congruence|]. rewrite <- E in *.
  destruct (charstep_progress (rest p)) as (k & K & _ & Hc); [congruence|]. specialize (Hc B). unfold decode. set (c := fst _) in *.
  assert (CL : (charlen c <= k)%nat) by (destruct Hc as [[-> ->]|[_ Hc]]; [reflexivity|auto]). pose proof (charlen_pos c) as CP.
  destruct (Nat.ltb_spec (length (rest p)) (charlen c)) as [X|_]; [lia|].
  destruct (c =? 10); eexists _, _; (split; [reflexivity|]); cbn [rest depth]; rewrite skipn_length; repeat split; try lia; try (apply Forall_skipn; exact B); congruence.
Qed.

(* white space *)
Definition nospace (r : list N) : Prop := match r with [] => True | c :: _ => ~ space c end.
Lemma spaces_spec s : forall l o s' l' o', spaces s l o = (s', l', o') -> exists w, s = w ++ s' /\ ws w /\ nospace s'.
Proof.
  induction s as [|c s IH]; intros l o s' l' o' H; cbn [spaces] in H.
  - injection H as <- <- <-. exists []. repeat split; constructor.
  - destruct (N.eqb_spec c 32) as [->|N1]; [apply IH in H as (w & -> & W & F); exists (32 :: w); repeat split; auto; constructor; auto; left; reflexivity|].
    destruct (N.eqb_spec c 9) as [->|N2]; [apply IH in H as (w & -> & W & F); exists (9 :: w); repeat split; auto; constructor; auto; right; left; reflexivity|].
    destruct (N.eqb_spec c 13) as [->|N3]; [apply IH in H as (w & -> & W & F); exists (13 :: w); repeat split; auto; constructor; auto; right; right; right; reflexivity|].
    destruct (N.eqb_spec c 10) as [->|N4]; [apply IH in H as (w & -> & W & F); exists (10 :: w); repeat split; auto; constructor; auto; right; right; left; reflexivity|].
    injection H as <- <- <-. exists []. split; [reflexivity|]. split; [constructor|]. cbn. unfold space. tauto.
Qed.
Lemma takespace_inv p : exists w, rest p = w ++ rest (takespace p) /\ ws w /\ nospace (rest (takespace p)) /\ depth (takespace p) = depth p.
Proof.
  unfold takespace. destruct (spaces (rest p) (line p) (off p)) as [[s l] o] eqn:E. cbn [rest depth].
  apply spaces_spec in E as (w & H1 & H2 & H3). eauto.
Qed.
Lemma takespace_ws w r d l o : ws w -> nospace r -> exists l' o', takespace (mkp (w ++ r) d l o) = mkp r d l' o'.
Proof.
  intros W NS. destruct (takespace_inv (mkp (w ++ r) d l o)) as (w' & E & W' & NS' & D). cbn [rest depth] in E, D.
  assert (X : rest (takespace (mkp (w ++ r) d l o)) = r).
  { set (r' := rest _) in *. clearbody r'. clear D. revert w' E W'. induction W as [|c w S W IH]; intros w' E W'.
    - destruct w' as [|c w']; [cbn in E; congruence|]. cbn in E. subst r. inversion W'; subst. cbn in NS. contradiction.
    - destruct w' as [|c' w']; [cbn in E; subst r'; cbn in NS'; contradiction|]. cbn in E. injection E as -> E. inversion W'; subst. eauto. }
  destruct (takespace _) as [s d' l' o']. cbn [rest depth] in X, D. subst. eauto.
Qed.

(* white space and the strings of the escapes *)
Lemma charval_hex c : IntFmt_Model.charval c 16 = match hexdigit c with Some n => Z.of_N n | None => (-1)%Z end.
Proof.
  unfold IntFmt_Model.charval, hexdigit.
  destruct (N.leb_spec 48 c), (N.leb_spec c 57), (N.leb_spec 97 c), (N.leb_spec c 122), (N.leb_spec c 102), (N.leb_spec 65 c), (N.leb_spec c 90), (N.leb_spec c 70); cbn [andb]; try lia;
    repeat match goal with |- context [(?a <? ?b)%Z] => destruct (Z.ltb_spec a b) | |- context [(?a <=? ?b)%Z] => destruct (Z.leb_spec a b) end; cbn [orb]; lia.
Qed.
Lemma hexdigit_lt c n : hexdigit c = Some n -> n < 16 /\ c < 128.
Proof.
  unfold hexdigit. destruct (N.leb_spec 48 c), (N.leb_spec c 57), (N.leb_spec 97 c), (N.leb_spec c 102), (N.leb_spec 65 c), (N.leb_spec c 70); cbn [andb]; intros E; inversion E; lia.
Qed.
(* what the code makes of four hexadecimal digits *)
Definition uni16 (t : list N) : option N :=
  match t with
  | [a; b; c; d] => match hexdigit a, hexdigit b, hexdigit c, hexdigit d with
                    | Some a, Some b, Some c, Some d => Some (16 * (a + b + c + d))
                    | _, _, _, _ => None
                    end
  | _ => None
  end.
Lemma unichar_step i c x r d l o n : hexdigit x = Some n -> exists l' o', unichar (S i) c (mkp (x :: r) d l o) = unichar i (c + n * 16) (mkp r d l' o').
Proof.
  intros H. pose proof (hexdigit_lt _ _ H) as [L1 L2]. cbn [unichar]. rewrite takec_ascii by exact L2. cbn [bind].
  rewrite charval_hex, H. destruct (Z.eqb_spec (Z.of_N n) (-1)) as [X|_]; [lia|]. rewrite N2Z.id. eauto.
Qed.
Lemma unichar_complete ds u r d l o : uni16 ds = Some u -> exists l' o', unichar 4 0 (mkp (ds ++ r) d l o) = Ok (Some u) (mkp r d l' o').
Proof.
  intros H. destruct ds as [|a [|b [|c [|e [|]]]]]; try discriminate H. cbn [uni16] in H.
  destruct (hexdigit a) as [na|] eqn:Ha; [|discriminate H]. destruct (hexdigit b) as [nb|] eqn:Hb; [|discriminate H].
  destruct (hexdigit c) as [nc|] eqn:Hc; [|discriminate H]. destruct (hexdigit e) as [ne|] eqn:He; [|discriminate H]. assert (EU : u = 16 * (na + nb + nc + ne)) by congruence. clear H. cbn [app].
  destruct (unichar_step 3 0 a (b :: c :: e :: r) d l o na Ha) as (l1 & o1 & ->). destruct (unichar_step 2 (0 + na * 16) b (c :: e :: r) d l1 o1 nb Hb) as (l2 & o2 & ->).
  destruct (unichar_step 1 (0 + na * 16 + nb * 16) c (e :: r) d l2 o2 nc Hc) as (l3 & o3 & ->). destruct (unichar_step 0 (0 + na * 16 + nb * 16 + nc * 16) e r d l3 o3 ne He) as (l4 & o4 & ->).
  cbn [unichar]. exists l4, o4. rewrite EU. replace (16 * (na + nb + nc + ne)) with (0 + na * 16 + nb * 16 + nc * 16 + ne * 16) by (clear; lia). reflexivity.
Qed.

(* the recursive functions, unfolded once *)
Section U.
Context {num : Type} (read : list N -> option num).
Notation parseelt := (@parseelt num read). Notation arrloop := (@arrloop num read). Notation objloop := (@objloop num read). Notation parsenum := (@parsenum num read).
Lemma parseelt_S fuel p : parseelt (S fuel) p =
        let p := takespace p in
        let chr := peekc p in
        if chr =? 123 then bind (takec p) (fun c p =>
          if negb (c =? 123) then Stop
          else let '(p, ok) := enter p in
               if ok then let p := takespace p in
                          if peekc p =? 125 then bind (takec p) (fun _ p => Ok (Obj []) p) else objloop fuel [] p
               else fail p Depth)
        else if chr =? 91 then bind (takec p) (fun c p =>
          if negb (c =? 91) then Stop
          else let '(p, ok) := enter p in
               if ok then let p := takespace p in
                          if peekc p =? 93 then bind (takec p) (fun _ p => Ok (Arr []) p) else arrloop fuel [] p
               else fail p Depth)
        else if chr =? 34 then bind (jsonstr p) (fun s p => Ok (Str s) p)
        else match matchprefix p [102; 97; 108; 115; 101] with
        | Some p => Ok (Bool false) p
        | None => match matchprefix p [116; 114; 117; 101] with
        | Some p => Ok (Bool true) p
        | None => match matchprefix p [110; 117; 108; 108] with
        | Some p => Ok Null p
        | None =>
            if isdigit (peekc p) || (peekc p =? 45) then
              match parsenum p with Some (n, p) => Ok (Num n) p | None => fail p (Junk chr) end
            else fail p (Junk chr)
        end end end.
Proof. reflexivity. Qed.
Lemma objloop_S fuel membs p : objloop (S fuel) membs p =
        if peekc p =? 125 then Ok (Obj membs) (exit p)
        else bind (member (parseelt fuel) p) (fun m p =>
          let membs := membs ++ [m] in
          bind (takec (takespace p)) (fun c p =>
            if c =? 44 then objloop fuel membs p
            else if c =? 125 then Ok (Obj membs) (exit p)
            else if c =? Badchar then fail p End
            else fail p (Junk c))).
Proof. reflexivity. Qed.
Lemma arrloop_S fuel elts p : arrloop (S fuel) elts p =
        bind (parseelt fuel p) (fun e p =>
          let elts := elts ++ [e] in
          bind (takec (takespace p)) (fun c p =>
            if c =? 44 then arrloop fuel elts p
            else if c =? 93 then Ok (Arr elts) (exit p)
            else if c =? Badchar then fail p End
            else fail p (Junk c))).
Proof. reflexivity. Qed.
End U.
