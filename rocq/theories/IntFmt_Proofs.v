From Verif Require Import Base ListX Word Endian_Model Endian_Proofs IntFmt_Model IntFmt_Spec.
From Verif Require Utf_Model Utf_Spec Utf_Proofs Str_Model Str_Spec Str_Proofs.
Open Scope Z_scope.
Ltac Zify.zify_post_hook ::= Z.div_mod_to_equations.

(* ---------- digits ---------- *)
Lemma digitchars_nth d : 0 <= d < 16 -> nth_error digitchars (Z.to_nat d) = Some (digit_char d).
Proof.
  intros H. assert (T : forallb (fun i => match nth_error digitchars i with Some c => N.eqb c (digit_char (Z.of_nat i)) | None => false end) (seq 0 16) = true) by reflexivity.
  rewrite forallb_forall in T. specialize (T (Z.to_nat d)). rewrite in_seq in T. specialize (T ltac:(lia)).
  destruct (nth_error digitchars (Z.to_nat d)) as [c|]; [|discriminate]. apply N.eqb_eq in T. rewrite T. now rewrite Z2Nat.id by lia.
Qed.

(* value of digits least significant first *)
Fixpoint lsb (base : Z) (ds : list Z) : Z := match ds with [] => 0 | d :: ds => d + base * lsb base ds end.
Lemma positional_app base ds : forall a d, fold_left (fun a d => a * base + d) (ds ++ [d]) a = fold_left (fun a d => a * base + d) ds a * base + d.
Proof. intros. now rewrite fold_left_app. Qed.
Lemma positional_rev base ds : positional base (rev ds) = lsb base ds.
Proof. induction ds as [|d ds IH]; [reflexivity|]. cbn [rev lsb]. unfold positional in *. rewrite positional_app, IH. lia. Qed.

Lemma digit_loop_spec base : 2 <= base <= 16 -> forall k fuel b val, (k < fuel)%nat -> 0 <= val < base ^ Z.of_nat k -> (length b + k <= 64)%nat ->
  exists ds, digit_loop fuel b val base = Some (Some (b ++ map digit_char ds)) /\ Forall (fun d => 0 <= d < base) ds /\ lsb base ds = val /\
    (val = 0 -> ds = []) /\ (val <> 0 -> exists ds' d, ds = ds' ++ [d] /\ d <> 0).
Proof.
  intros Hb. induction k as [|k IH]; intros [|fuel] b val Hf Hv Hl; try lia.
  - change (base ^ Z.of_nat 0) with 1 in Hv. assert (val = 0) by lia. subst. cbn. exists []. rewrite app_nil_r. repeat split; auto; lia.
  - cbn [digit_loop]. destruct (Z.eqb_spec val 0) as [->|Hnz].
    + exists []. cbn. rewrite app_nil_r. repeat split; auto; lia.
    + destruct (Z.eqb_spec base 0); [lia|]. pose proof (Z.mod_pos_bound val base ltac:(lia)) as Hm.
      rewrite digitchars_nth by lia. destruct (Nat.ltb_spec (length b) 64); [|lia].
      rewrite Nat2Z.inj_succ, Z.pow_succ_r in Hv by lia.
      destruct (IH fuel (b ++ [digit_char (val mod base)]) (val / base)) as (ds & E & F & L & Z0 & Znz).
      * lia.
      * split; [apply Z.div_pos; lia|]. apply Z.div_lt_upper_bound; lia.
      * rewrite app_length. cbn. lia.
      * exists (val mod base :: ds). split; [rewrite E; now rewrite <- app_assoc|]. split; [constructor; auto|].
        split; [cbn [lsb]; rewrite L; pose proof (Z.div_mod val base ltac:(lia)); lia|]. split; [lia|]. intros _.
        destruct (Z.eq_dec (val / base) 0) as [Ez|Ez].
        -- rewrite (Z0 Ez). exists [], (val mod base). split; auto. pose proof (Z.div_mod val base ltac:(lia)). rewrite Ez in *. lia.
        -- destruct (Znz Ez) as (ds' & d & -> & Hd). exists (val mod base :: ds'), d. auto.
Qed.

(* the digits of one value, as intfmt emits them *)
Lemma digits_spec base val : 2 <= base <= 16 -> 0 <= val < 2 ^ 64 ->
  exists b, digit_loop 66 (if val =? 0 then [48%N] else []) val base = Some (Some b) /\ numeral base val (rev b).
Proof.
  intros Hb Hv. destruct (Z.eqb_spec val 0) as [->|Hnz].
  - exists [48%N]. split; [reflexivity|]. exists [0]. split; [reflexivity|]. split; [repeat constructor; lia|]. split; [reflexivity|auto].
  - destruct (digit_loop_spec base Hb 64 66 [] val) as (ds & E & F & L & _ & Hd); [lia| |cbn; lia|].
    + split; [lia|]. eapply Z.lt_le_trans; [apply Hv|]. apply Z.pow_le_mono_l. lia.
    + exists (map digit_char ds). split; [exact E|]. exists (rev ds). split; [now rewrite map_rev|]. split; [now apply Forall_rev|].
      split; [now rewrite positional_rev|]. right. destruct (Hd Hnz) as (ds' & d & -> & Hd0). exists d, (rev ds'). rewrite rev_app_distr. auto.
Qed.

(* ---------- the whole string ---------- *)
Definition ndigits (padto : Z) (len : nat) (neg : bool) : nat := Z.to_nat (padto - Z.of_nat len - (if neg then 1 else 0)).
Lemma npad_eq (padto : Z) (b : nat) (neg : bool) : Z.to_nat (if neg then clamp (padto - Z.of_nat b) 0 padto - 1 else clamp (padto - Z.of_nat b) 0 padto) = ndigits padto b neg.
Proof.
  unfold clamp, ndigits. destruct (Z.ltb_spec (padto - Z.of_nat b) 0), (Z.ltb_spec padto (padto - Z.of_nat b)); destruct neg; lia.
Qed.

Lemma cast_range t v : 0 < w t -> cast t v = v -> if sgn t then - 2 ^ (w t - 1) <= v < 2 ^ (w t - 1) else 0 <= v < 2 ^ w t.
Proof.
  intros Hw Hv. unfold cast in Hv. destruct (sgn t); rewrite <- Hv; [apply swrap_range; auto|apply uwrap_range; lia].
Qed.

(* bits and magnitude that intfmt computes for a value of type t *)
Lemma fmtint_core o t v : 0 < w t <= 32 \/ w t = 64 -> cast t v = v -> 2 <= base o <= 16 -> v <> - 2 ^ 63 ->
  exists s, numeral (base o) (Z.abs v) s /\
    fmtint o t v = Out ((if N.eqb (padfill o) 48 && (v <? 0) then [45%N] else []) ++
      concat (repeat (Utf_Spec.utf8 (padfill o)) (ndigits (padto o) (length s) (v <? 0))) ++
      (if negb (N.eqb (padfill o) 48) && (v <? 0) then [45%N] else []) ++ s).
Proof.
  intros Hw Hv Hb Hmin. pose proof (cast_range t v ltac:(lia) Hv) as R.
  assert (P64 : 2 ^ w t <= 2 ^ 64) by (apply Z.pow_le_mono_r; lia).
  assert (P63 : 2 ^ (w t - 1) <= 2 ^ 63) by (apply Z.pow_le_mono_r; lia).
  assert (Pp : 0 < 2 ^ (w t - 1)) by (apply Z.pow_pos_nonneg; lia).
  assert (Pw : 0 < 2 ^ w t) by (apply Z.pow_pos_nonneg; lia).
  assert (C64 : cast uint64 v = if v <? 0 then v + 2 ^ 64 else v).
  { change (cast uint64 v) with (v mod 2 ^ 64). destruct (Z.ltb_spec v 0).
    - symmetry. apply Z.mod_unique with (-1); [left; destruct (sgn t); lia|lia].
    - apply Z.mod_small. destruct (sgn t); lia. }
  assert (Ebase : cast uint64 (base o) = base o) by (apply (uwrap_small 64); lia).
  assert (Eneg : sgn t && (cast uint64 (Z.shiftl 1 ((w t - 1) mod 64)) <=? cast uint64 v) = (v <? 0)).
  { rewrite C64. rewrite (Z.mod_small (w t - 1)) by lia. rewrite Z.shiftl_mul_pow2, Z.mul_1_l by lia.
    change (cast uint64 (2 ^ (w t - 1))) with (uwrap 64 (2 ^ (w t - 1))).
    rewrite (uwrap_small 64) by lia. destruct (sgn t); cbn [andb].
    - destruct (Z.ltb_spec v 0); [destruct (Z.leb_spec (2 ^ (w t - 1)) (v + 2 ^ 64))|destruct (Z.leb_spec (2 ^ (w t - 1)) v)]; auto; lia.
    - destruct (Z.ltb_spec v 0); auto. lia. }
  assert (Es : v < 0 -> cast int64 (- cast int64 (cast uint64 v)) = - v).
  { intros Hn. assert (cast int64 (cast uint64 v) = v) as ->.
    { unfold cast; cbn [sgn int64 uint64 w]. rewrite swrap_uwrap by lia. apply swrap_small; [lia|]. change (64 - 1) with 63. destruct (sgn t); lia. }
    apply (swrap_small 64); [lia|]. change (64 - 1) with 63. destruct (sgn t); lia. }
  assert (Eval : (if v <? 0 then cast uint64 (cast int64 (- cast int64 (cast uint64 v))) else Z.land (cast uint64 v) (Z.shiftr (cast uint64 (Z.lnot 0)) (w t mod 64))) = Z.abs v).
  { destruct (Z.ltb_spec v 0) as [Hn|Hn].
    - rewrite Es by auto. change (cast uint64 (- v)) with (uwrap 64 (- v)). rewrite (uwrap_small 64); [lia|]. destruct (sgn t); lia.
    - rewrite C64. change (cast uint64 (Z.lnot 0)) with (Z.ones 64).
      destruct Hw as [Hw|Hw].
      + rewrite (Z.mod_small (w t)) by lia. rewrite Z.shiftr_div_pow2 by lia. rewrite Z.ones_div_pow2 by lia. rewrite Z.land_ones by lia.
        assert (2 ^ w t <= 2 ^ (64 - w t)) by (apply Z.pow_le_mono_r; lia). assert (2 ^ (w t - 1) <= 2 ^ w t) by (apply Z.pow_le_mono_r; lia).
        rewrite Z.mod_small; [lia|]. destruct (sgn t); lia.
      + rewrite Hw. change (Z.shiftr (Z.ones 64) (64 mod 64)) with (Z.ones 64). rewrite Z.land_ones by lia. rewrite Z.mod_small; [lia|]. destruct (sgn t); lia. }
  unfold fmtint, intfmt. rewrite Eneg, Ebase, Eval.
  assert ((v <? 0) && (cast int64 (- cast int64 (cast uint64 v)) <? 0) = false) as ->.
  { destruct (Z.ltb_spec v 0); [|reflexivity]. rewrite Es by auto. cbn. lia. }
  destruct (digits_spec (base o) (Z.abs v) Hb) as (b & -> & Nu); [destruct (sgn t); lia|].
  exists (rev b). split; auto. rewrite npad_eq, rev_length. reflexivity.
Qed.

(* ---------- parsing ---------- *)
Lemma digit_char_ascii d : 0 <= d < 16 -> (digit_char d < 128)%N.
Proof. intros H. unfold digit_char. destruct (Z.ltb_spec d 10); lia. Qed.
Lemma charval_digit d base : 0 <= d < base -> base <= 16 -> charval (digit_char d) base = d /\ digit_char d <> 95%N.
Proof.
  intros H Hb. unfold charval, digit_char. destruct (Z.ltb_spec d 10).
  - destruct (N.leb_spec 48 (Z.to_N (48 + d))); [|lia]. destruct (N.leb_spec (Z.to_N (48 + d)) 57); [|lia]. cbn [andb].
    rewrite Z2N.id by lia. destruct (Z.ltb_spec (48 + d - 48) 0); [lia|]. destruct (Z.leb_spec base (48 + d - 48)); [lia|]. cbn [orb]. lia.
  - destruct (N.leb_spec 48 (Z.to_N (87 + d))); [|lia]. destruct (N.leb_spec (Z.to_N (87 + d)) 57); [lia|]. cbn [andb].
    destruct (N.leb_spec 97 (Z.to_N (87 + d))); [|lia]. destruct (N.leb_spec (Z.to_N (87 + d)) 122); [|lia]. cbn [andb].
    rewrite Z2N.id by lia. destruct (Z.ltb_spec (87 + d - 97 + 10) 0); [lia|]. destruct (Z.leb_spec base (87 + d - 97 + 10)); [lia|]. cbn [orb]. lia.
Qed.
Lemma parse_loop_spec t base : 0 < w t -> base <= 16 -> forall ds v u, Forall (fun d => 0 <= d < base) ds -> cast t v = v -> cong (w t) v u ->
  exists r, parse_loop t base v (map digit_char ds) = Some r /\ cast t r = r /\ cong (w t) r (fold_left (fun a d => a * base + d) ds u).
Proof.
  intros Hw Hb. induction ds as [|d ds IH]; intros v u Hd Hv Hu; cbn [map parse_loop fold_left]; [eauto|].
  inversion Hd as [|? ? H1 H2]; subst. destruct (charval_digit d base H1 Hb) as [-> Hne].
  destruct (N.eqb_spec (digit_char d) 95); [congruence|]. destruct (Z.leb_spec 0 d); [|lia].
  apply IH; auto; [now apply cast_idem|]. eapply cong_trans; [apply cast_cong; auto|].
  apply cong_add; [lia| |apply cast_cong; auto]. eapply cong_trans; [apply cast_cong; auto|].
  apply cong_mul; [lia|auto|]. apply cast_cong; auto.
Qed.
Lemma ascii_utf8 cs : Forall (fun c => (c < 128)%N) cs -> Utf_Spec.utf8_string cs = cs.
Proof.
  induction 1 as [|c cs H _ IH]; [reflexivity|]. unfold Utf_Spec.utf8_string in *. cbn [map concat]. rewrite IH. unfold Utf_Spec.utf8.
  destruct (N.ltb_spec c 0x80); [reflexivity|lia].
Qed.
Lemma bychar_ascii cs : Forall (fun c => (c < 128)%N) cs -> Utf_Model.bychar (S (length cs)) cs = Some cs.
Proof.
  intros H. rewrite <- (ascii_utf8 cs H) at 1 2. apply Utf_Proofs.bychar_utf8; auto.
  eapply Forall_impl; [|exact H]. cbn. intros; lia.
Qed.

(* digits with any number of leading zeros parse to the value *)
Lemma doparse_digits t base ds neg : 0 < w t -> 2 <= base <= 16 -> Forall (fun d => 0 <= d < base) ds ->
  doparse t (map digit_char ds) neg base = Some (cast t (if neg then - positional base ds else positional base ds)).
Proof.
  intros Hw Hb Hd. unfold doparse. rewrite bychar_ascii.
  - destruct (parse_loop_spec t base Hw ltac:(lia) ds 0 0 Hd (cast_0 t Hw) (cong_refl _ _)) as (r & -> & Hr & C).
    fold (positional base ds) in C. f_equal. destruct neg.
    + apply cast_eq; auto. apply cong_opp; [lia|auto].
    + rewrite <- Hr. apply cast_eq; auto.
  - apply Forall_map. eapply Forall_impl; [|exact Hd]. cbn. intros d H. apply digit_char_ascii. lia.
Qed.

Lemma hasprefix_cons x y s p : Str_Model.hasprefix (x :: s) (y :: p) = (x =? y)%N && Str_Model.hasprefix s p.
Proof.
  apply eq_true_iff_eq. rewrite andb_true_iff, !Str_Proofs.hasprefix_spec, N.eqb_eq. unfold Str_Spec.prefix_of. split.
  - intros [r E]. injection E as -> ->. split; [reflexivity|]. exists r. reflexivity.
  - intros [-> [r ->]]. exists r. reflexivity.
Qed.
Lemma hasprefix_nil s : Str_Model.hasprefix s [] = true.
Proof. apply Str_Proofs.hasprefix_spec. exists s. reflexivity. Qed.
Lemma hasprefix_empty y p : Str_Model.hasprefix [] (y :: p) = false.
Proof. reflexivity. Qed.

Lemma positional_zeros base k ds : positional base (repeat 0 k ++ ds) = positional base ds.
Proof. unfold positional. induction k as [|k IH]; cbn [repeat app fold_left]; auto. Qed.
Lemma digits_no_minus ds : Forall (fun d => 0 <= d < 16) ds -> Str_Model.hasprefix (map digit_char ds) [45%N] = false.
Proof.
  destruct ds as [|d ds]; intros H; [apply hasprefix_empty|]. inversion H; subst. cbn [map]. rewrite hasprefix_cons.
  destruct (N.eqb_spec (digit_char d) 45) as [E|]; auto. exfalso. unfold digit_char in E. destruct (Z.ltb_spec d 10); lia.
Qed.
Lemma intparsebase_digits t base ds (neg : bool) : 0 < w t -> 2 <= base <= 16 -> Forall (fun d => 0 <= d < base) ds ->
  intparsebase t ((if neg then [45%N] else []) ++ map digit_char ds) base = Some (cast t (if neg then - positional base ds else positional base ds)).
Proof.
  intros Hw Hb Hd. unfold intparsebase. destruct neg; cbn [app].
  - rewrite hasprefix_cons, hasprefix_nil. cbn [N.eqb andb Pos.eqb skipn]. now apply doparse_digits.
  - rewrite digits_no_minus by (eapply Forall_impl; [|exact Hd]; cbn; lia). now apply doparse_digits.
Qed.
(* in base 10 no digit is a letter, so there is no 0x, 0o, 0b *)
Lemma no_base_prefix ds c : (65 <= c)%N -> Forall (fun d => 0 <= d < 10) ds -> Str_Model.hasprefix (map digit_char ds) [48%N; c] = false.
Proof.
  intros Hc H. destruct ds as [|d [|e ds]]; [apply hasprefix_empty|cbn [map]; rewrite hasprefix_cons, hasprefix_empty; apply andb_false_r|].
  inversion H as [|? ? H1 H2]; subst. inversion H2 as [|? ? H3 H4]; subst. cbn [map]. rewrite !hasprefix_cons.
  destruct (N.eqb_spec (digit_char e) c) as [E|]; [|now rewrite andb_false_r]. exfalso. unfold digit_char in E. destruct (Z.ltb_spec e 10); lia.
Qed.
Lemma intparse_digits t ds (neg : bool) : 0 < w t -> ds <> [] -> Forall (fun d => 0 <= d < 10) ds ->
  intparse t ((if neg then [45%N] else []) ++ map digit_char ds) = Some (cast t (if neg then - positional 10 ds else positional 10 ds)).
Proof.
  intros Hw Hne Hd.
  assert (D : forall neg : bool, (if (length (map digit_char ds) =? 0)%nat then None
     else if Str_Model.hasprefix (map digit_char ds) [48;120]%N then doparse t (skipn 2 (map digit_char ds)) neg 16
     else if Str_Model.hasprefix (map digit_char ds) [48;111]%N then doparse t (skipn 2 (map digit_char ds)) neg 8
     else if Str_Model.hasprefix (map digit_char ds) [48;98]%N then doparse t (skipn 2 (map digit_char ds)) neg 2
     else doparse t (map digit_char ds) neg 10) = Some (cast t (if neg then - positional 10 ds else positional 10 ds))).
  { intros n. rewrite !no_base_prefix by (auto; lia). rewrite map_length. destruct ds; [congruence|]. cbn [length Nat.eqb]. apply doparse_digits; auto. lia. }
  unfold intparse. destruct neg; cbn [app].
  - rewrite hasprefix_cons, hasprefix_nil. cbn [N.eqb andb Pos.eqb skipn]. apply D.
  - rewrite digits_no_minus by (eapply Forall_impl; [|exact Hd]; cbn; lia). apply D.
Qed.
