From Verif Require Import Base BaseProofs GoStd SpecText.
Ltac Zify.zify_post_hook ::= Z.div_mod_to_equations.

Lemma dec_val_from_app s t : forall a, dec_val_from a (s ++ t) = dec_val_from (dec_val_from a s) t.
Proof. induction s; intros a0; cbn [app dec_val_from]; auto. Qed.
Lemma dec_val_from_acc s : forall a, dec_val_from a s = a * 10 ^ zlen s + dec_val s.
Proof.
  unfold dec_val. induction s as [|c s IH]; intros a; cbn [dec_val_from]; [cbn; lia|].
  rewrite IH, (IH (10 * 0 + _)). rewrite zlen_cons, Z.pow_add_r by (pose proof (zlen_nonneg s); lia).
  change (10 ^ 1) with 10. ring.
Qed.
Lemma dec_val_app s t : dec_val (s ++ t) = dec_val s * 10 ^ zlen t + dec_val t.
Proof. unfold dec_val at 1. rewrite dec_val_from_app. apply dec_val_from_acc. Qed.
Lemma dec_val_cons c s : dec_val (c :: s) = (zb c - 48) * 10 ^ zlen s + dec_val s.
Proof. unfold dec_val at 1. cbn [dec_val_from]. rewrite dec_val_from_acc. f_equal. Qed.
Lemma pow10_pos {A} (s : list A) : 0 < 10 ^ zlen s.
Proof. apply Z.pow_pos_nonneg; [lia|apply zlen_nonneg]. Qed.
Lemma dec_val_bound s : digits s -> 0 <= dec_val s < 10 ^ zlen s.
Proof.
  intros H. induction H as [|c s Hc Hs IH]; [cbn; lia|].
  rewrite dec_val_cons, zlen_cons, Z.pow_add_r by (pose proof (zlen_nonneg s); lia).
  unfold digit in Hc. pose proof (pow10_pos s). nia.
Qed.
Lemma zb_digit d : 0 <= d < 10 -> zb (bz (48 + d)) = 48 + d.
Proof. intros H. rewrite zb_bz. lia. Qed.

(** ** Formatting *)
Lemma dec_loop_spec fuel : forall v acc, 0 <= v < 2 ^ Z.of_nat fuel -> 0 < v \/ (0 < fuel)%nat -> digits acc ->
  exists ds, dec_loop fuel v acc = ds ++ acc /\ numeral v ds.
Proof.
  induction fuel as [|fuel IH]; intros v acc Hv Hp Ha; [cbn in Hv; lia|].
  cbn [dec_loop]. rewrite Nat2Z.inj_succ, Z.pow_succ_r in Hv by lia.
  destruct (Z.ltb_spec v 10) as [H|H].
  - exists [bz (48 + v)]. split; [reflexivity|]. split; [discriminate|].
    split; [constructor; [|constructor]; unfold digit; rewrite zb_digit; lia|].
    split; [unfold dec_val; cbn [dec_val_from]; rewrite zb_digit; lia|].
    intros t E. injection E as _ <-. reflexivity.
  - assert (0 < v / 10 < 2 ^ Z.of_nat fuel) as Hq by lia.
    destruct (IH (v / 10) (bz (48 + v mod 10) :: acc)) as [ds [E [N [D [V Z0]]]]]; [lia|left; lia| |].
    { constructor; [|exact Ha]. unfold digit. rewrite zb_digit; lia. }
    exists (ds ++ [bz (48 + v mod 10)]). rewrite E, <- app_assoc. split; [reflexivity|].
    split; [destruct ds; discriminate|].
    split; [apply Forall_app; split; [exact D|]; constructor; [|constructor]; unfold digit; rewrite zb_digit; lia|].
    split.
    + rewrite dec_val_app, V. cbn [zlen length]. unfold dec_val. cbn [dec_val_from].
      rewrite zb_digit by lia. change (10 ^ zlen [bz (48 + v mod 10)]) with 10. lia.
    + intros t Et. destruct ds as [|c ds]; [congruence|]. cbn [app] in Et. injection Et as -> <-.
      specialize (Z0 _ eq_refl). subst. exfalso. revert V. unfold dec_val. cbn [dec_val_from].
      change (zb x30) with 48. lia.
Qed.
Lemma FormatUint_numeral v : 0 <= v -> numeral v (FormatUint v).
Proof.
  intros H. unfold FormatUint.
  destruct (dec_loop_spec (S (Z.to_nat (Z.log2 v))) v []) as [ds [E N]].
  - split; [lia|]. rewrite Nat2Z.inj_succ, Z2Nat.id by apply Z.log2_nonneg.
    destruct (Z.eq_dec v 0) as [->|]; [reflexivity|]. apply Z.log2_spec. lia.
  - right. lia.
  - constructor.
  - rewrite E, app_nil_r. exact N.
Qed.
Lemma FormatInt_numeral v : int_numeral v (FormatInt v).
Proof.
  unfold FormatInt. destruct (Z.ltb_spec v 0).
  - right. split; [lia|]. eexists. split; [reflexivity|]. apply FormatUint_numeral. lia.
  - left. split; [lia|]. apply FormatUint_numeral. lia.
Qed.

(** Numerals are unique. *)
Lemma dec_val_inj s : forall t, length s = length t -> digits s -> digits t -> dec_val s = dec_val t -> s = t.
Proof.
  induction s as [|c s IH]; intros [|d t] L Hs Ht E; try discriminate L; [reflexivity|].
  injection L as L. inversion Hs as [|? ? Hc Hs']; inversion Ht as [|? ? Hd Ht']; subst.
  rewrite !dec_val_cons in E. unfold zlen in E. rewrite L in E.
  pose proof (dec_val_bound s Hs') as Bs. pose proof (dec_val_bound t Ht') as Bt.
  unfold zlen in Bs, Bt. rewrite L in Bs. set (P := 10 ^ Z.of_nat (length t)) in *.
  unfold digit in *. assert (zb c = zb d) by nia.
  assert (c = d) by (rewrite <- (bz_zb c), <- (bz_zb d); now f_equal). subst.
  f_equal. apply IH; auto. lia.
Qed.
Lemma numeral_lower n s : numeral n s -> n = 0 /\ s = [x30] \/ 10 ^ (zlen s - 1) <= n.
Proof.
  intros [N [D [V Z0]]]. destruct s as [|c s]; [congruence|]. inversion D as [|? ? Hc Hs]; subst.
  rewrite zlen_cons. replace (1 + zlen s - 1) with (zlen s) by lia.
  pose proof (dec_val_bound s Hs). rewrite dec_val_cons. unfold digit in Hc. pose proof (pow10_pos s).
  destruct (Z.eq_dec (zb c) 48) as [E|E].
  - assert (c = x30) by (rewrite <- (bz_zb c), E; reflexivity). subst.
    rewrite (Z0 s eq_refl). left. split; reflexivity.
  - right. nia.
Qed.
Lemma FormatUint_val v : 0 <= v -> dec_val (FormatUint v) = v.
Proof. intros H. now destruct (FormatUint_numeral v H) as [_ [_ [V _]]]. Qed.
Lemma FormatUint_digits v : 0 <= v -> digits (FormatUint v).
Proof. intros H. now destruct (FormatUint_numeral v H) as [_ [V _]]. Qed.
Lemma FormatUint_ne v : 0 <= v -> FormatUint v <> [].
Proof. intros H. now destruct (FormatUint_numeral v H) as [V _]. Qed.

(** ** Parsing *)
Lemma is_dec_digit c : is_dec c = true <-> digit c.
Proof. unfold is_dec, digit. lia. Qed.
Lemma dec_val_from_mono s : forall a, 0 <= a -> digits s -> a <= dec_val_from a s.
Proof.
  intros a Ha H. rewrite dec_val_from_acc. pose proof (dec_val_bound s H). pose proof (pow10_pos s). nia.
Qed.

Lemma ParseUint_loop_ok s maxVal : 0 <= maxVal < two64 -> forall n v, 0 <= n <= maxVal ->
  (ParseUint_loop s n maxVal = (v, None) <-> digits s /\ v = dec_val_from n s /\ v <= maxVal).
Proof.
  intros M. induction s as [|c s IH]; intros n v Hn; cbn [ParseUint_loop dec_val_from].
  - split; [intros [= <-]; repeat split; [constructor|lia]|]. intros [_ [-> _]]. reflexivity.
  - destruct (is_dec c) eqn:D; cbn [negb].
    + pose proof D as D'. apply is_dec_digit in D'. unfold digit in D'.
      assert (FF : ~ (digits (c :: s) /\ v = dec_val_from (10 * n + (zb c - 48)) s /\ v <= maxVal)
                   \/ 10 * n + (zb c - 48) <= maxVal).
      { destruct (Z.le_gt_cases (10 * n + (zb c - 48)) maxVal); [auto|]. left. intros [H1 [-> H2]].
        inversion H1; subst. pose proof (dec_val_from_mono s (10 * n + (zb c - 48)) ltac:(lia) H5). lia. }
      destruct (Z.leb_spec 1844674407370955162 n) as [H|H].
      { split; [discriminate|]. intros C. destruct FF as [F|F]; [contradiction|lia]. }
      unfold u64. rewrite (Z.mod_small (n * 10)) by lia.
      destruct (Z.lt_ge_cases (n * 10 + (zb c - 48)) two64) as [S|S].
      * rewrite Z.mod_small by lia.
        destruct (Z.ltb_spec (n * 10 + (zb c - 48)) (n * 10)); [lia|]. cbn [orb].
        destruct (Z.ltb_spec maxVal (n * 10 + (zb c - 48))).
        { split; [discriminate|]. intros C. destruct FF as [F|F]; [contradiction|lia]. }
        rewrite IH by lia. replace (n * 10 + (zb c - 48)) with (10 * n + (zb c - 48)) by lia.
        split; [intros [A B]; split; [constructor; assumption|exact B]|].
        intros [A B]; inversion A; subst; auto.
      * assert (E : (n * 10 + (zb c - 48)) mod 18446744073709551616 = n * 10 + (zb c - 48) - two64) by lia.
        rewrite E. destruct (Z.ltb_spec (n * 10 + (zb c - 48) - two64) (n * 10)); [|lia]. cbn [orb].
        split; [discriminate|]. intros C. destruct FF as [F|F]; [contradiction|lia].
    + split; [discriminate|]. intros [A _]. inversion A; subst. apply is_dec_digit in H1. congruence.
Qed.
Lemma ParseUint_loop_err s maxVal : forall n v e, 
  ParseUint_loop s n maxVal = (v, Some e) -> (e = ErrSyntax /\ v = 0) \/ (e = ErrRange /\ v = maxVal).
Proof.
  induction s as [|c s IH]; intros n v e; cbn [ParseUint_loop]; [discriminate|].
  destruct (negb (is_dec c)); [intros [= <- <-]; auto|].
  destruct (_ <=? n); [intros [= <- <-]; auto|].
  destruct (_ || _); [intros [= <- <-]; auto|]. apply IH.
Qed.

Lemma pow2_le_64 b : 0 <= b <= 64 -> 1 <= 2 ^ b <= two64.
Proof.
  intros H. split; [apply (Z.pow_le_mono_r 2 0 b); lia|].
  change two64 with (2 ^ 64). apply Z.pow_le_mono_r; lia.
Qed.
Lemma ParseUint_ok s b v : 0 <= b <= 64 ->
  (ParseUint s b = (v, None) <-> s <> [] /\ digits s /\ v = dec_val s /\ v < 2 ^ b).
Proof.
  intros Hb. pose proof (pow2_le_64 b Hb). unfold ParseUint. destruct s as [|c s].
  - split; [discriminate|]. intros [[] _]. reflexivity.
  - rewrite ParseUint_loop_ok by lia. fold (dec_val (c :: s)).
    split; [intros [A [B C]]; repeat split; [discriminate|auto|auto|lia]|].
    intros [_ [A [B C]]]. repeat split; auto. lia.
Qed.
Lemma ParseUint_err s b v e : ParseUint s b = (v, Some e) ->
  (e = ErrSyntax /\ v = 0) \/ (e = ErrRange /\ v = 2 ^ b - 1).
Proof. unfold ParseUint. destruct s; [intros [= <- <-]; auto|]. apply ParseUint_loop_err. Qed.

Lemma sign_not_digit c : Byte.eqb c x2d = true \/ Byte.eqb c x2b = true -> ~ digit c.
Proof. intros [H|H]; apply Byte.byte_dec_bl in H; subst; unfold digit; cbn; lia. Qed.

Lemma ParseInt_ok s b v : 1 < b <= 64 ->
  (ParseInt s b = Ok v <-> int_text s v /\ - 2 ^ (b - 1) <= v < 2 ^ (b - 1)).
Proof.
  intros Hb. unfold ParseInt. pose proof (pow2_le_64 b ltac:(lia)) as P.
  assert (P1 : 2 ^ b = 2 * 2 ^ (b - 1)) by (rewrite <- Z.pow_succ_r by lia; f_equal; lia).
  pose proof (pow2_le_64 (b - 1) ltac:(lia)) as P2. pose proof (pow2_le_64 1 ltac:(lia)).
  assert (P3 : 2 <= 2 ^ (b - 1)) by (apply (Z.pow_le_mono_r 2 1 (b - 1)); lia).
  destruct s as [|c s'].
  { split; [discriminate|]. intros [I _]. inversion I; congruence. }
  set (neg := Byte.eqb c x2d). set (t := if Byte.eqb c x2b || neg then s' else c :: s').
  assert (IT : int_text (c :: s') v <-> t <> [] /\ digits t /\ v = if neg then - dec_val t else dec_val t).
  { subst t neg. destruct (Byte.eqb c x2d) eqn:E1.
    - apply Byte.byte_dec_bl in E1. subst. cbn [orb]. rewrite orb_true_r. split.
      + intros I. inversion I as [? N D| |? N D]; subst; [|auto].
        inversion D as [|? ? X]; subst. unfold digit in X. cbn in X. lia.
      + intros [N [D ->]]. now constructor.
    - destruct (Byte.eqb c x2b) eqn:E2; cbn [orb].
      + apply Byte.byte_dec_bl in E2. subst. split.
        * intros I. inversion I as [? N D|? N D|]; subst; [|auto].
          inversion D as [|? ? X]; subst. unfold digit in X. cbn in X. lia.
        * intros [N [D ->]]. now constructor.
      + split.
        * intros I. inversion I as [? N D|? N D|? N D]; subst; auto; discriminate.
        * intros [N [D ->]]. now constructor. }
  destruct (ParseUint t b) as [un err] eqn:E.
  destruct err as [e|].
  - assert (NO : ~ (int_text (c :: s') v /\ - 2 ^ (b - 1) <= v < 2 ^ (b - 1))).
    { intros [I R]. apply IT in I as [N [D V]]. pose proof (dec_val_bound t D).
      assert (Q : ParseUint t b = (dec_val t, None)).
      { apply ParseUint_ok; [lia|]. repeat split; auto. destruct neg; lia. }
      congruence. }
    split; [|tauto]. intros X. exfalso. apply ParseUint_err in E as [[-> ->]|[-> ->]].
    + discriminate X.
    + cbn [ErrRange] in X.
      destruct neg; cbn [negb andb] in X.
      * destruct (Z.ltb_spec (2 ^ (b - 1)) (2 ^ b - 1)); [discriminate X|lia].
      * destruct (Z.leb_spec (2 ^ (b - 1)) (2 ^ b - 1)); [discriminate X|lia].
  - apply ParseUint_ok in E as [N [D [-> B]]]; [|lia].
    pose proof (dec_val_bound t D) as DB. rewrite IT. destruct neg; cbn [negb andb].
    + destruct (Z.ltb_spec (2 ^ (b - 1)) (dec_val t)).
      * split; [discriminate|]. intros [[_ [_ ->]] R]. lia.
      * assert (W : i64 (- i64 (dec_val t)) = - dec_val t) by (unfold i64; lia). rewrite W.
        split; [intros [= <-]; repeat split; auto; lia|]. intros [[_ [_ ->]] R]. reflexivity.
    + destruct (Z.leb_spec (2 ^ (b - 1)) (dec_val t)).
      * split; [discriminate|]. intros [[_ [_ ->]] R]. lia.
      * assert (W : i64 (dec_val t) = dec_val t) by (unfold i64; lia). rewrite W.
        split; [intros [= <-]; repeat split; auto; lia|]. intros [[_ [_ ->]] R]. reflexivity.
Qed.
Lemma ParseInt_nopanic s b m : ParseInt s b <> Panic m.
Proof.
  unfold ParseInt. destruct s as [|c s]; [discriminate|].
  destruct (ParseUint _ b) as [un err] eqn:E.
  destruct err as [e|]; [apply ParseUint_err in E as [[-> ->]|[-> ->]]; [discriminate|cbn [ErrRange]]|];
  destruct (_ && _); try discriminate; destruct (_ && _); discriminate.
Qed.

(** int_text is functional *)
Lemma int_text_fun s a b : int_text s a -> int_text s b -> a = b.
Proof.
  intros H K. inversion H as [? N D|? N D|? N D]; subst; inversion K as [? N' D'|? N' D'|? N' D']; subst; auto.
  all: exfalso; match goal with
       | D : digits (x2d :: _) |- _ => inversion D as [|? ? X _]
       | D : digits (x2b :: _) |- _ => inversion D as [|? ? X _]
       end; unfold digit in X; cbn in X; lia.
Qed.

(** ** big.SetString *)
Lemma big_digits_ok s : forall n v, big_digits s n = Some v <-> digits s /\ v = dec_val_from n s.
Proof.
  induction s as [|c s IH]; intros n v; cbn [big_digits dec_val_from].
  - split; [intros [= <-]; split; [constructor|reflexivity]|intros [_ ->]; reflexivity].
  - destruct (is_dec c) eqn:D.
    + rewrite IH. replace (n * 10 + (zb c - 48)) with (10 * n + (zb c - 48)) by lia.
      apply is_dec_digit in D. split; intros [A B]; split; auto; [now constructor|now inversion A].
    + split; [discriminate|]. intros [A _]. inversion A; subst. apply is_dec_digit in H1. congruence.
Qed.
Lemma big_SetString_ok s v : big_SetString s = Some v <-> int_text s v.
Proof.
  unfold big_SetString. destruct s as [|c s'].
  { split; [discriminate|]. intros I. inversion I; congruence. }
  assert (B : forall t w, big_scan t = Some w <->
            t <> [] /\ digits t /\ w = dec_val t).
  { intros t w. unfold big_scan. destruct t as [|x t]; [split; [discriminate|intros [[] _]; reflexivity]|].
    rewrite big_digits_ok. split; [intros [A ->]; split; [discriminate|auto]|tauto]. }
  destruct (Byte.eqb c x2d) eqn:E1; [|destruct (Byte.eqb c x2b) eqn:E2].
  - apply Byte.byte_dec_bl in E1. subst. split.
    + destruct (big_scan s') eqn:E; [|discriminate].
      apply B in E as [N [D ->]]. intros [= <-]. now constructor.
    + intros I. inversion I as [? N D| |? N D]; subst.
      * inversion D as [|? ? X]; subst. unfold digit in X. cbn in X. lia.
      * rewrite (proj2 (B s' (dec_val s'))); auto.
  - apply Byte.byte_dec_bl in E2. subst. rewrite B. split.
    + intros [N [D ->]]. now constructor.
    + intros I. inversion I as [? N D|? N D|]; subst; [|auto].
      inversion D as [|? ? X]; subst. unfold digit in X. cbn in X. lia.
  - rewrite B. split.
    + intros [N [D ->]]. now constructor.
    + intros I. inversion I as [? N D|? N D|? N D]; subst; auto; discriminate.
Qed.
Lemma FormatInt_text v : int_text (FormatInt v) v.
Proof.
  destruct (FormatInt_numeral v) as [[H [N [D [V _]]]]|[H [t [-> [N [D [V _]]]]]]].
  - rewrite <- V at 2. now constructor.
  - replace v with (- dec_val t) at 1 by lia. now constructor.
Qed.

(** ** Split *)
Lemma Split_ne s sep : Split s sep <> [].
Proof. destruct s as [|c s]; cbn [Split]; [discriminate|]. destruct (Byte.eqb c sep); [discriminate|]. destruct (Split s sep); discriminate. Qed.
Lemma Split_one s sep a : Split s sep = [a] <-> s = a /\ ~ In sep a.
Proof.
  revert a. induction s as [|c s IH]; intros a; cbn [Split].
  - split; [intros [= <-]; auto|]. intros [<- _]. reflexivity.
  - destruct (Byte.eqb c sep) eqn:E.
    + apply Byte.byte_dec_bl in E. subst. split.
      * intros [= _ H]. now apply Split_ne in H.
      * intros [<- H]. elim H. now left.
    + assert (c <> sep) by (intros ->; rewrite (Byte.byte_dec_lb eq_refl) in E; discriminate).
      destruct (Split s sep) as [|p ps] eqn:S; [now apply Split_ne in S|].
      split.
      * intros [= <- ->]. destruct (proj1 (IH p) eq_refl) as [<- H2]. split; [reflexivity|].
        intros [X|X]; [congruence|auto].
      * intros [<- H2]. assert (Q : p :: ps = [s]) by (apply IH; split; [reflexivity|]; intros X; apply H2; now right).
        now injection Q as -> ->.
Qed.
Lemma Split_two s sep a b : Split s sep = [a; b] <-> s = a ++ sep :: b /\ ~ In sep a /\ ~ In sep b.
Proof.
  revert a b. induction s as [|c s IH]; intros a b; cbn [Split].
  - split; [discriminate|]. intros [E _]. destruct a; discriminate.
  - destruct (Byte.eqb c sep) eqn:E.
    + apply Byte.byte_dec_bl in E. subst. split.
      * intros [= <- H]. apply Split_one in H as [<- H]. split; [reflexivity|]. split; [auto|exact H].
      * intros [E [H1 H2]]. destruct a as [|x a]; cbn [app] in E; injection E as E.
        -- f_equal. now apply Split_one.
        -- subst. elim H1. now left.
    + assert (c <> sep) by (intros ->; rewrite (Byte.byte_dec_lb eq_refl) in E; discriminate).
      destruct (Split s sep) as [|p ps] eqn:S; [now apply Split_ne in S|].
      split.
      * intros [= <- ->]. destruct (proj1 (IH p b) eq_refl) as [-> [H2 H3]].
        split; [reflexivity|]. split; [|exact H3]. intros [X|X]; [congruence|auto].
      * intros [Q [H2 H3]]. destruct a as [|x a]; cbn [app] in Q; [congruence|]. injection Q as -> ->.
        assert (Q : p :: ps = [a; b]).
        { apply IH. split; [reflexivity|]. split; [|exact H3]. intros X; apply H2; now right. }
        now injection Q as -> ->.
Qed.

(** ** Runes *)
Lemma runes_ascii i b s : zb b < 128 -> runes i (b :: s) = (i, zb b) :: runes (i + 1) s.
Proof. intros H. cbn [runes]. destruct (Z.ltb_spec (zb b) 128); [reflexivity|lia]. Qed.
Lemma runes_high i b s : 128 <= zb b -> exists r rest, runes i (b :: s) = (i, r) :: rest /\ 128 <= r.
Proof.
  intros H. cbn [runes]. destruct (Z.ltb_spec (zb b) 128); [lia|].
  assert (B : exists r rest, (i, RuneError) :: runes (i + 1) s = (i, r) :: rest /\ 128 <= r)
    by (do 2 eexists; split; [reflexivity|unfold RuneError; lia]).
  destruct (inr 194 223 b) eqn:E1.
  { destruct s as [|b1 t1]; [exact B|]. destruct (cont b1) eqn:E2; [|exact B].
    do 2 eexists; split; [reflexivity|]. unfold inr, cont in *. lia. }
  destruct (inr 224 239 b) eqn:E2.
  { destruct s as [|b1 [|b2 t2]]; [exact B|exact B|].
    destruct (inr (if zb b =? 224 then 160 else 128) _ b1 && cont b2) eqn:E3; [|exact B].
    do 2 eexists; split; [reflexivity|]. unfold inr, cont in *. destruct (Z.eqb_spec (zb b) 224); lia. }
  destruct (inr 240 244 b) eqn:E3.
  { destruct s as [|b1 [|b2 [|b3 t3]]]; [exact B|exact B|exact B|].
    destruct (inr (if zb b =? 240 then 144 else 128) _ b1 && cont b2 && cont b3) eqn:E4; [|exact B].
    do 2 eexists; split; [reflexivity|]. unfold inr, cont in *. destruct (Z.eqb_spec (zb b) 240); lia. }
  exact B.
Qed.
Lemma put_rune_ascii r : 0 <= r < 128 -> put_rune r = [bz r].
Proof.
  intros H. unfold put_rune.
  destruct (Z.ltb_spec r 0); [lia|]. destruct (Z.ltb_spec 1114111 r); [lia|].
  destruct (Z.leb_spec 55296 r); [lia|]. cbn [orb andb]. destruct (Z.ltb_spec r 128); [reflexivity|lia].
Qed.
