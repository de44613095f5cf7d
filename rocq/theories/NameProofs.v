From Verif Require Import Base BaseProofs Name SpecName.
Ltac Zify.zify_post_hook ::= Z.div_mod_to_equations.

(** ** Digits *)
Definition dg (d : Z) : Prop := 0 <= d < 32.
Fixpoint val (l : list Z) (acc : Z) : Z :=
  match l with [] => acc | d :: l => val l (32 * acc + d) end.

Lemma val_app l m : forall acc, val (l ++ m) acc = val m (val l acc).
Proof. induction l; intros acc; cbn [app val]; auto. Qed.
Lemma val_snoc l d acc : val (l ++ [d]) acc = 32 * val l acc + d.
Proof. now rewrite val_app. Qed.
Lemma val_acc l : forall acc, val l acc = acc * 32 ^ zlen l + val l 0.
Proof.
  induction l as [|d l IH]; intros acc; cbn [val]; [cbn; lia|].
  rewrite IH, (IH (32 * 0 + d)). rewrite zlen_cons, Z.pow_add_r by (pose proof (zlen_nonneg l); lia). lia.
Qed.
Lemma val_bound l : Forall dg l -> 0 <= val l 0 < 32 ^ zlen l.
Proof.
  intros H. induction H as [|d l Hd Hl IH]; [cbn; lia|]. cbn [val]. rewrite val_acc.
  rewrite zlen_cons, Z.pow_add_r by (pose proof (zlen_nonneg l); lia). unfold dg in Hd.
  assert (0 < 32 ^ zlen l) by (apply Z.pow_pos_nonneg; [lia|apply zlen_nonneg]). nia.
Qed.

Lemma byte_forall (P : byte -> bool) : forallb P (map bz (map Z.of_nat (seq 0 256))) = true ->
  forall b, P b = true.
Proof.
  intros H b. rewrite forallb_forall in H. apply H.
  rewrite map_map. apply in_map_iff. exists (Z.to_nat (zb b)). pose proof (zb_range b).
  split; [rewrite Z2Nat.id by lia; apply bz_zb|]. apply in_seq. lia.
Qed.
Lemma below32 (P : Z -> bool) : forallb P (map Z.of_nat (seq 0 32)) = true ->
  forall d, dg d -> P d = true.
Proof.
  intros H d Hd. unfold dg in Hd. rewrite forallb_forall in H. apply H.
  apply in_map_iff. exists (Z.to_nat d). split; [lia|]. apply in_seq. lia.
Qed.

Lemma sym_alpha d : dg d -> charToSymbol (alpha d) = d.
Proof. intros H. apply Z.eqb_eq. revert d H. apply below32. reflexivity. Qed.
Lemma digit0_alpha d : dg d -> digit0 (alpha d) = d.
Proof. intros H. apply Z.eqb_eq. revert d H. apply below32. reflexivity. Qed.
Lemma sym_range c : dg (charToSymbol c).
Proof.
  unfold dg, charToSymbol.
  destruct ((97 <=? zb c) && (zb c <=? 122)) eqn:E; [lia|].
  destruct ((49 <=? zb c) && (zb c <=? 53)) eqn:E2; lia.
Qed.
Lemma sym_digit0 c : charToSymbol c = digit0 c.
Proof.
  unfold charToSymbol, digit0, name_digit.
  destruct (Z.eqb_spec (zb c) 46) as [->|]; [reflexivity|].
  destruct ((97 <=? zb c) && (zb c <=? 122)) eqn:E; destruct ((49 <=? zb c) && (zb c <=? 53)) eqn:E2; lia.
Qed.
Lemma alpha_name_char d : dg d -> name_char d = alpha d.
Proof. intros H. apply eqb_eq. revert d H. apply below32. reflexivity. Qed.
Lemma alpha_inj d e : dg d -> dg e -> alpha d = alpha e -> d = e.
Proof. intros Hd He E. rewrite <- (sym_alpha d), <- (sym_alpha e), E; auto. Qed.
Lemma alpha_dot d : dg d -> (alpha d = x2e <-> d = 0).
Proof.
  intros H. split; [|intros ->; reflexivity]. intros E. apply alpha_inj; [exact H|unfold dg; lia|exact E].
Qed.
Lemma alpha_char d : dg d -> is_name_char (alpha d).
Proof.
  intros H. unfold is_name_char. intros N.
  assert (X : (match name_digit (alpha d) with Some _ => true | None => false end) = true).
  { revert d H N. intros d H _. revert d H. apply below32. reflexivity. }
  rewrite N in X. discriminate.
Qed.
Lemma alpha_char_inv c : is_name_char c -> alpha (digit0 c) = c.
Proof.
  intros H.
  assert (X : (match name_digit c with Some d => Byte.eqb (alpha d) c | None => true end) = true).
  { clear H. revert c. apply byte_forall. reflexivity. }
  unfold is_name_char, digit0 in *. destruct (name_digit c); [|congruence]. now apply eqb_eq.
Qed.
Lemma digit0_range c : dg (digit0 c).
Proof. rewrite <- sym_digit0. apply sym_range. Qed.
Lemma alpha_mono d e : dg d -> dg e -> (zb (alpha d) < zb (alpha e) <-> d < e).
Proof.
  intros Hd He.
  assert (M : forall d, dg d -> zb (alpha d) = if d =? 0 then 46 else if d <=? 5 then 48 + d else 91 + d).
  { intros x Hx. apply Z.eqb_eq. revert x Hx. apply below32. reflexivity. }
  rewrite !M by assumption. unfold dg in *.
  destruct (Z.eqb_spec d 0), (Z.eqb_spec e 0); try lia;
    destruct (Z.leb_spec d 5); try lia; destruct (Z.leb_spec e 5); lia.
Qed.

(** ** nameToString *)
Lemma land31 x : Z.land x 31 = x mod 32.
Proof. apply (Z.land_ones x 5). lia. Qed.
Lemma land15 x : Z.land x 15 = x mod 16.
Proof. apply (Z.land_ones x 4). lia. Qed.

Lemma ntos_loop l : Forall dg l -> forall i acc, 0 < i ->
  nameToString_loop (length l) i (val l 0) acc = map alpha l ++ acc.
Proof.
  induction l as [|d l IH] using rev_ind; intros H i acc Hi; [reflexivity|].
  rewrite app_length, Nat.add_comm. cbn [length Nat.add nameToString_loop].
  apply Forall_app in H as [Hl Hd]. inversion Hd as [|? ? D _]; subst. unfold dg in D.
  destruct (Z.eqb_spec i 0); [lia|]. rewrite land31, val_snoc.
  rewrite Z.shiftr_div_pow2 by lia. change (2 ^ 5) with 32.
  replace ((32 * val l 0 + d) mod 32) with d by lia.
  replace ((32 * val l 0 + d) / 32) with (val l 0) by lia.
  rewrite IH by (try assumption; lia). rewrite map_app, <- app_assoc. reflexivity.
Qed.

Definition word (l : list Z) (d : Z) : Z := 16 * val l 0 + d.
Definition digits_ok (l : list Z) (d : Z) : Prop := length l = 12%nat /\ Forall dg l /\ 0 <= d < 16.

Lemma nameToString_digits l d : digits_ok l d ->
  nameToString (word l d) = trimRightDots (map alpha (l ++ [d])).
Proof.
  intros [L [F D]]. unfold nameToString, word. f_equal.
  change 13%nat with (S 12). rewrite <- L. cbn [nameToString_loop].
  change (0 =? 0) with true. cbv iota. rewrite land15, Z.shiftr_div_pow2 by lia. change (2 ^ 4) with 16.
  replace ((16 * val l 0 + d) mod 16) with d by lia.
  replace ((16 * val l 0 + d) / 16) with (val l 0) by lia.
  rewrite ntos_loop by (try assumption; lia). now rewrite map_app.
Qed.

Fixpoint to_digits (k : nat) (v : Z) : list Z :=
  match k with O => [] | S k => to_digits k (v / 32) ++ [v mod 32] end.
Lemma to_digits_ok k : forall v, 0 <= v < 32 ^ Z.of_nat k ->
  length (to_digits k v) = k /\ Forall dg (to_digits k v) /\ val (to_digits k v) 0 = v.
Proof.
  induction k as [|k IH]; intros v H; [cbn in *; repeat split; [constructor|lia]|].
  cbn [to_digits]. rewrite Nat2Z.inj_succ, Z.pow_succ_r in H by lia.
  destruct (IH (v / 32)) as [L [F V]]; [lia|].
  rewrite app_length, L, val_snoc, V. cbn [length].
  split; [lia|]. split; [|lia]. apply Forall_app. split; [exact F|]. constructor; [unfold dg; lia|constructor].
Qed.
Lemma word_exists n : 0 <= n < two64 -> exists l d, digits_ok l d /\ n = word l d.
Proof.
  intros H. exists (to_digits 12 (n / 16)), (n mod 16).
  destruct (to_digits_ok 12 (n / 16)) as [L [F V]]; [change (32 ^ Z.of_nat 12) with 1152921504606846976; lia|].
  unfold digits_ok, word. rewrite V. repeat split; auto; lia.
Qed.
Lemma word_bound l d : digits_ok l d -> 0 <= word l d < two64.
Proof.
  intros [L [F D]]. pose proof (val_bound l F) as B. unfold zlen in B. rewrite L in B.
  change (32 ^ Z.of_nat 12) with 1152921504606846976 in B. unfold word. lia.
Qed.

(** ** stringToName *)
Definition dig (s : list byte) (i : nat) : Z := match nth_error s i with Some c => charToSymbol c | None => 0 end.
Definition sdigits (s : list byte) : list Z := map (dig s) (seq 0 12).
Definition slast (s : list byte) : Z := dig s 12 mod 16.

Lemma dig_range s i : dg (dig s i).
Proof. unfold dig. destruct (nth_error s i); [apply sym_range|unfold dg; lia]. Qed.

(** The prefix of s that is looked at. *)
Definition eff (s : list byte) : list byte := firstn (Z.to_nat (zlen s mod two32)) s.

Lemma eff_len s : zlen (eff s) = u32 (zlen s).
Proof.
  unfold eff, u32, zlen. rewrite firstn_length. lia.
Qed.
Lemma loop_char s i : 0 <= i ->
  (if i <? u32 (zlen s) then charToSymbol (nth (Z.to_nat i) s x00) else 0) = dig (eff s) (Z.to_nat i).
Proof.
  intros H. unfold dig. pose proof (eff_len s) as L. unfold zlen at 1 in L.
  destruct (Z.ltb_spec i (u32 (zlen s))) as [Hi|Hi].
  - assert (Hn : (Z.to_nat i < length (eff s))%nat) by lia.
    rewrite (nth_error_nth' (eff s) x00) by exact Hn. f_equal.
    unfold eff. rewrite <- (firstn_skipn (Z.to_nat (zlen s mod two32)) s) at 1.
    rewrite app_nth1; [reflexivity|]. fold (eff s). exact Hn.
  - assert (E : nth_error (eff s) (Z.to_nat i) = None) by (apply nth_error_None; lia). now rewrite E.
Qed.

Lemma land_small d m n : 0 <= n -> m = Z.ones n -> 0 <= d < 2 ^ n -> Z.land d m = d.
Proof. intros Hn -> H. rewrite Z.land_ones by lia. apply Z.mod_small. exact H. Qed.

Lemma ston_loop s : forall k i, (i + k = 12)%nat -> forall l,
  l = map (dig (eff s)) (seq 0 i) ->
  stringToName_loop (S k) (Z.of_nat i) (u32 (zlen s)) s (val l 0 * 2 ^ (64 - 5 * Z.of_nat i))
  = word (sdigits (eff s)) (slast (eff s)).
Proof.
  induction k as [|k IH]; intros i E l ->.
  - assert (i = 12)%nat as -> by lia. cbn [stringToName_loop]. rewrite loop_char by lia.
    change (Z.of_nat 12 <? 12) with false. cbv iota. rewrite land15.
    change (64 - 5 * Z.of_nat 12) with 4. change (Z.to_nat (Z.of_nat 12)) with 12%nat.
    unfold word, sdigits, slast. rewrite lor_hi; change (2 ^ 4) with 16; lia.
  - remember (S k) as k'. cbn [stringToName_loop]. subst k'. rewrite loop_char by lia.
    destruct (Z.ltb_spec (Z.of_nat i) 12) as [Hi|Hi]; [|lia].
    rewrite Nat2Z.id. pose proof (dig_range (eff s) i) as D. unfold dg in D.
    rewrite (land_small _ 31 5) by (try lia; reflexivity).
    set (e := 64 - 5 * (Z.of_nat i + 1)). assert (He : 0 <= e <= 59) by lia.
    rewrite Z.shiftl_mul_pow2 by lia.
    assert (P : 0 < 2 ^ e) by (apply Z.pow_pos_nonneg; lia).
    assert (P2 : 2 ^ (e + 5) = 32 * 2 ^ e) by (rewrite Z.pow_add_r by lia; change (2 ^ 5) with 32; lia).
    assert (P3 : 2 ^ (e + 5) <= two64).
    { change two64 with (2 ^ 64). apply Z.pow_le_mono_r; lia. }
    unfold u64. rewrite Z.mod_small by nia.
    replace (64 - 5 * Z.of_nat i) with (e + 5) by lia.
    rewrite lor_hi; [|lia|nia].
    replace (Z.of_nat i + 1) with (Z.of_nat (S i)) by lia.
    specialize (IH (S i) ltac:(lia) _ eq_refl).
    rewrite seq_S, map_app in IH. cbn [map Nat.add] in IH. rewrite val_snoc in IH.
    replace (64 - 5 * Z.of_nat (S i)) with e in IH by lia.
    rewrite <- IH. f_equal. rewrite P2. ring.
Qed.

Lemma stringToName_digits s : stringToName s = word (sdigits (eff s)) (slast (eff s)).
Proof. exact (ston_loop s 12 0 eq_refl [] eq_refl). Qed.
Lemma sdigits_ok s : digits_ok (sdigits s) (slast s).
Proof.
  split; [reflexivity|]. split.
  - apply Forall_forall. intros x H. apply in_map_iff in H as [i [<- _]]. apply dig_range.
  - unfold slast. lia.
Qed.

(** ** Trimming *)
Lemma strip_nil_dots s : strip s = [] <-> Forall (eq x2e) s.
Proof.
  induction s as [|c s IH]; cbn [strip]; [split; auto|].
  destruct (strip s) eqn:E.
  - destruct (Byte.eqb c x2e) eqn:B.
    + apply eqb_eq in B. subst. split; auto. intros _. constructor; [reflexivity|]. now apply IH.
    + split; [discriminate|]. intros H. inversion H; subst. cbn in B. discriminate.
  - split; [discriminate|]. intros H. inversion H; subst. apply IH in H3. discriminate.
Qed.
Lemma drop_dots_app a b : Forall (eq x2e) a -> drop_dots (a ++ b) = drop_dots b.
Proof. intros H. induction H as [|c a <- _ IH]; cbn [app drop_dots]; auto. Qed.
Lemma drop_rev_snoc c l : strip (rev l) <> [] -> rev (drop_dots (l ++ [c])) = c :: rev (drop_dots l).
Proof.
  induction l as [|x l IHl]; cbn [rev]; intros H; [destruct (H eq_refl)|]. cbn [app drop_dots].
  destruct (Byte.eqb x x2e) eqn:B.
  - apply IHl. intros N. apply H. apply strip_nil_dots. apply strip_nil_dots in N.
    apply Forall_app. split; [exact N|]. apply eqb_eq in B. subst. auto.
  - cbn [rev]. rewrite rev_app_distr. reflexivity.
Qed.
Lemma trim_strip s : trimRightDots s = strip s.
Proof.
  unfold trimRightDots. induction s as [|c s IH]; [reflexivity|]. cbn [rev strip].
  destruct (strip s) eqn:E.
  - apply strip_nil_dots in E. rewrite drop_dots_app by now apply Forall_rev.
    cbn [drop_dots]. destruct (Byte.eqb c x2e); reflexivity.
  - rewrite drop_rev_snoc; [now rewrite IH|]. rewrite rev_involutive, E. discriminate.
Qed.

Lemma strip_spec s : exists k, s = strip s ++ repeat x2e k.
Proof.
  induction s as [|c s [k IH]]; cbn [strip]; [exists O; reflexivity|].
  destruct (strip s) eqn:E.
  - cbn [app] in IH. destruct (Byte.eqb c x2e) eqn:B.
    + apply eqb_eq in B. subst c. exists (S k). cbn [app repeat]. now rewrite <- IH.
    + exists k. cbn [app]. now rewrite <- IH.
  - exists k. cbn [app] in *. now rewrite <- IH.
Qed.
Lemma strip_last s : last (strip s) x61 <> x2e.
Proof.
  induction s as [|c s IH]; cbn [strip]; [discriminate|].
  destruct (strip s) eqn:E.
  - destruct (Byte.eqb c x2e) eqn:B; [discriminate|]. cbn [last]. intros ->. discriminate.
  - cbn [last] in *. exact IH.
Qed.
Lemma strip_id s : last s x61 <> x2e -> strip s = s.
Proof.
  induction s as [|c s IH]; intros H; [reflexivity|]. cbn [strip].
  destruct s as [|x s].
  - cbn in H |- *. destruct (Byte.eqb c x2e) eqn:B; [|reflexivity]. apply eqb_eq in B. congruence.
  - rewrite IH; [reflexivity|]. exact H.
Qed.

(** ** Digits of trimmed text *)
Lemma nth_error_repeat_any {A} (x : A) k i : nth_error (repeat x k) i = if (i <? k)%nat then Some x else None.
Proof.
  revert i. induction k as [|k IH]; intros i; [destruct i; reflexivity|].
  destruct i; [reflexivity|]. cbn [repeat nth_error]. rewrite IH. reflexivity.
Qed.
Lemma dig_strip s i : dig (strip s) i = dig s i.
Proof.
  destruct (strip_spec s) as [k E]. rewrite E at 2. unfold dig.
  destruct (Nat.lt_ge_cases i (length (strip s))) as [H|H].
  - now rewrite nth_error_app1.
  - rewrite nth_error_app2 by exact H. rewrite nth_error_repeat_any.
    rewrite (proj2 (nth_error_None _ _)) by exact H.
    destruct (_ <? _)%nat; reflexivity.
Qed.
Lemma sdigits_strip s : sdigits (strip s) = sdigits s.
Proof. unfold sdigits. apply map_ext. intros i. apply dig_strip. Qed.
Lemma slast_strip s : slast (strip s) = slast s.
Proof. unfold slast. now rewrite dig_strip. Qed.

Lemma digits_of_chars l d : digits_ok l d ->
  sdigits (map alpha (l ++ [d])) = l /\ slast (map alpha (l ++ [d])) = d.
Proof.
  intros [L [F D]].
  assert (G : forall i x, nth_error (l ++ [d]) i = Some x -> dig (map alpha (l ++ [d])) i = x).
  { intros i x H. unfold dig. rewrite (map_nth_error alpha i (l ++ [d]) H). apply sym_alpha.
    apply nth_error_In in H. apply in_app_or in H as [H|[<-|[]]]; [|unfold dg; lia].
    rewrite Forall_forall in F. auto. }
  split.
  - unfold sdigits. do 12 (destruct l as [|? l]; [discriminate L|]).
    destruct l; [|discriminate L]. cbn [seq map app] in *.
    repeat f_equal; apply G; reflexivity.
  - unfold slast. rewrite (G 12%nat d); [lia|].
    rewrite nth_error_app2 by lia. now rewrite L.
Qed.

Lemma eff_small s : zlen s < two32 -> eff s = s.
Proof.
  intros H. unfold eff. pose proof (zlen_nonneg s).
  rewrite Z.mod_small by lia. unfold zlen. rewrite Nat2Z.id. apply firstn_all.
Qed.
Lemma strip_length s : (length (strip s) <= length s)%nat.
Proof. destruct (strip_spec s) as [k E]. rewrite E at 2. rewrite app_length. lia. Qed.

(** ** The results *)
Lemma name_string n l d : digits_ok l d -> n = word l d -> Name_String n = strip (map alpha (l ++ [d])).
Proof. intros H ->. unfold Name_String. rewrite nameToString_digits, trim_strip; auto. Qed.

Lemma name_string_short n : 0 <= n < two64 -> (length (Name_String n) <= 13)%nat.
Proof.
  intros H. destruct (word_exists n H) as [l [d [K E]]]. rewrite (name_string n l d K E).
  etransitivity; [apply strip_length|]. rewrite map_length, app_length. destruct K as [-> _]. cbn. lia.
Qed.

Theorem name_roundtrip n : 0 <= n < two64 -> NewName (Name_String n) = n.
Proof.
  intros H. pose proof (name_string_short n H) as S.
  unfold NewName. rewrite stringToName_digits. rewrite eff_small by (unfold zlen; lia).
  destruct (word_exists n H) as [l [d [K E]]]. rewrite (name_string n l d K E).
  rewrite sdigits_strip, slast_strip. destruct (digits_of_chars l d K) as [-> ->]. now rewrite E.
Qed.

Lemma forall_app_l {A} (P : A -> Prop) l m : Forall P (l ++ m) -> Forall P l.
Proof. intros H. now apply Forall_app in H as [? _]. Qed.

Theorem name_canonical n : 0 <= n < two64 -> canonical_name (Name_String n).
Proof.
  intros H. split; [now apply name_string_short|].
  destruct (word_exists n H) as [l [d [K E]]]. rewrite (name_string n l d K E). destruct K as [L [F D]].
  destruct (strip_spec (map alpha (l ++ [d]))) as [k X].
  split; [|split; [apply strip_last|]].
  - apply forall_app_l with (m := repeat x2e k). rewrite <- X.
    apply Forall_map, Forall_app. split.
    + eapply Forall_impl; [|exact F]. apply alpha_char.
    + constructor; [|constructor]. apply alpha_char. unfold dg; lia.
  - intros c Hc.
    assert (Y : nth_error (map alpha (l ++ [d])) 12 = Some c).
    { rewrite X, nth_error_app1; [exact Hc|]. apply nth_error_Some. congruence. }
    rewrite map_app, nth_error_app2 in Y by (rewrite map_length; lia).
    rewrite map_length, L in Y. cbn [Nat.sub map nth_error] in Y. injection Y as <-.
    pose proof (alpha_mono d 16 ltac:(unfold dg; lia) ltac:(unfold dg; lia)) as M.
    change (zb (alpha 16)) with 107 in M. destruct M as [_ M]. specialize (M ltac:(lia)). lia.
Qed.

(** name_word of the spec *)
Lemma name_word_strip s : forall i, name_word i (strip s) = name_word i s.
Proof.
  induction s as [|c s IH]; intros i; [reflexivity|]. cbn [strip].
  destruct (strip s) eqn:E.
  - cbn [name_word] in *. rewrite <- IH. destruct (Byte.eqb c x2e) eqn:B.
    + apply eqb_eq in B. subst. cbn [name_word]. change (digit0 x2e) with 0. destruct (i <? 12); lia.
    + reflexivity.
  - cbn [name_word]. rewrite <- IH. reflexivity.
Qed.
Lemma name_word_app a b : forall i, name_word i (a ++ b) = name_word i a + name_word (i + zlen a) b.
Proof.
  induction a as [|c a IH]; intros i; cbn [app name_word].
  - cbn. f_equal. lia.
  - rewrite IH, zlen_cons. replace (i + 1 + zlen a) with (i + (1 + zlen a)) by lia. lia.
Qed.
Lemma name_word_digits l : Forall dg l -> (length l <= 12)%nat ->
  name_word 0 (map alpha l) = val l 0 * 2 ^ (64 - 5 * zlen l).
Proof.
  induction l as [|d l IH] using rev_ind; intros F L; [reflexivity|].
  apply Forall_app in F as [F D]. inversion D; subst. rewrite app_length in L. cbn [length] in L.
  rewrite map_app, name_word_app, IH by (try assumption; lia). cbn [map name_word].
  unfold zlen. rewrite map_length, app_length. cbn [length].
  destruct (Z.ltb_spec (0 + Z.of_nat (length l)) 12); [|lia].
  rewrite digit0_alpha by assumption. rewrite val_snoc.
  replace (64 - 5 * Z.of_nat (length l)) with (5 + (64 - 5 * Z.of_nat (length l + 1))) by lia.
  rewrite Z.pow_add_r by lia. change (2 ^ 5) with 32.
  replace (64 - 5 * (0 + Z.of_nat (length l) + 1)) with (64 - 5 * Z.of_nat (length l + 1)) by lia. ring.
Qed.
Theorem name_word_string n : 0 <= n < two64 -> name_word 0 (Name_String n) = n.
Proof.
  intros H. destruct (word_exists n H) as [l [d [K E]]]. rewrite (name_string n l d K E).
  destruct K as [L [F D]]. rewrite name_word_strip, map_app, name_word_app, name_word_digits by (auto; lia).
  unfold zlen. rewrite map_length, L. cbn [map name_word]. change (0 + Z.of_nat 12 <? 12) with false. cbv iota.
  rewrite digit0_alpha by (unfold dg; lia). rewrite E. unfold word.
  change (2 ^ (64 - 5 * Z.of_nat 12)) with 16. lia.
Qed.

(** ** Normalisation *)
Lemma clean_nth s : forall i j, (0 <= i)%nat -> (i + j <= 12)%nat ->
  nth_error (clean (Z.of_nat i) s) j
  = match nth_error s j with
    | Some c => Some (alpha (if (i + j <? 12)%nat then digit0 c else digit0 c mod 16))
    | None => None
    end.
Proof.
  induction s as [|c s IH]; intros i j Hi Hj; cbn [clean]; [destruct j; reflexivity|].
  pose proof (digit0_range c) as D. unfold dg in D.
  destruct (Z.ltb_spec (Z.of_nat i) 12) as [H|H].
  - destruct j as [|j].
    + cbn [nth_error]. rewrite Nat.add_0_r. destruct (Nat.ltb_spec i 12); [|lia].
      rewrite alpha_name_char by exact D. reflexivity.
    + cbn [nth_error]. replace (Z.of_nat i + 1) with (Z.of_nat (S i)) by lia.
      rewrite IH by lia. replace (S i + j)%nat with (i + S j)%nat by lia. reflexivity.
  - assert (i = 12%nat) as -> by lia. assert (j = 0%nat) as -> by lia.
    change (Z.of_nat 12 =? 12) with true. cbv iota. cbn [nth_error].
    rewrite alpha_name_char by (unfold dg; lia). reflexivity.
Qed.
Lemma clean_length s : forall i, (i <= 13)%nat -> (length (clean (Z.of_nat i) s) <= 13 - i)%nat.
Proof.
  induction s as [|c s IH]; intros i Hi; cbn [clean]; [cbn; lia|].
  destruct (Z.ltb_spec (Z.of_nat i) 12).
  - cbn [length]. replace (Z.of_nat i + 1) with (Z.of_nat (S i)) by lia. specialize (IH (S i)). lia.
  - destruct (Z.eqb_spec (Z.of_nat i) 12); cbn [length]; lia.
Qed.

(** The padded characters of a string's name and its cleaned text agree up to
    dots at the end. *)
Lemma strip_eq_pad a b : (forall i, nth i a x2e = nth i b x2e) -> strip a = strip b.
Proof.
  revert b. induction a as [|x a IH]; intros b H.
  - symmetry. apply strip_nil_dots. apply Forall_forall. intros c Hc.
    apply In_nth with (d := x2e) in Hc as [i [_ <-]]. rewrite <- H. destruct i; reflexivity.
  - destruct b as [|y b].
    + apply strip_nil_dots. apply Forall_forall. intros c Hc.
      apply In_nth with (d := x2e) in Hc as [i [_ <-]]. rewrite H. destruct i; reflexivity.
    + cbn [strip]. rewrite (IH b) by (intros i; apply (H (S i))).
      now rewrite (H O : x = y).
Qed.

Lemma nth_nth_error {A} (l : list A) i d : nth i l d = match nth_error l i with Some x => x | None => d end.
Proof. revert i. induction l; intros [|i]; cbn; auto. Qed.

Lemma pad_clean s i :
  nth i (map alpha (sdigits s ++ [slast s])) x2e = nth i (clean 0 s) x2e.
Proof.
  destruct (Nat.le_gt_cases i 12) as [H|H].
  - rewrite (nth_nth_error (clean 0 s)). change 0 with (Z.of_nat 0). rewrite clean_nth by lia.
    rewrite Nat.add_0_l. rewrite map_app.
    destruct (Nat.ltb_spec i 12) as [Hi|Hi].
    + rewrite app_nth1 by (rewrite map_length; exact Hi). unfold sdigits. rewrite map_map.
      rewrite nth_nth_error, nth_error_map.
      rewrite (nth_error_nth' _ 0%nat) by (rewrite seq_length; exact Hi).
      rewrite seq_nth by exact Hi. cbn [option_map Nat.add]. unfold dig.
      destruct (nth_error s i); [now rewrite sym_digit0|reflexivity].
    + assert (i = 12%nat) as -> by lia. rewrite app_nth2 by (rewrite map_length; cbn; lia).
      rewrite map_length. change (12 - length (sdigits s))%nat with 0%nat. cbn [map nth].
      unfold slast, dig. destruct (nth_error s 12); [now rewrite sym_digit0|reflexivity].
  - rewrite !nth_overflow; [reflexivity| |].
    + pose proof (clean_length s 0 ltac:(lia)). change (Z.of_nat 0) with 0 in *. lia.
    + rewrite map_length, app_length. cbn [length]. unfold sdigits. rewrite map_length, seq_length. lia.
Qed.

Theorem name_normalise s :
  Name_String (NewName s) = normalise (firstn (Z.to_nat (zlen s mod two32)) s).
Proof.
  unfold NewName. rewrite stringToName_digits. fold (eff s).
  rewrite (name_string _ _ _ (sdigits_ok (eff s)) eq_refl). unfold normalise.
  apply strip_eq_pad. intros i. apply pad_clean.
Qed.

Lemma clean_canonical s : forall i, 0 <= i -> Forall is_name_char s ->
  i + zlen s <= 13 -> (forall c, nth_error s (Z.to_nat (12 - i)) = Some c -> 0 <= i <= 12 -> zb c <= 106) ->
  clean i s = s.
Proof.
  induction s as [|c s IH]; intros i Hi F L T; [reflexivity|]. cbn [clean].
  inversion F as [|? ? C F']; subst. rewrite zlen_cons in L. pose proof (zlen_nonneg s).
  pose proof (digit0_range c) as D. unfold dg in D.
  destruct (Z.ltb_spec i 12) as [H1|H1].
  - rewrite alpha_name_char by exact D. rewrite alpha_char_inv by exact C. f_equal.
    apply IH; try assumption; try lia. intros x Hx Hr. apply (T x); [|lia].
    replace (Z.to_nat (12 - i)) with (S (Z.to_nat (12 - (i + 1)))) by lia. exact Hx.
  - assert (i = 12) by lia. subst. change (12 =? 12) with true. cbv iota.
    destruct s; [|rewrite zlen_cons in *; pose proof (zlen_nonneg s); lia].
    specialize (T c eq_refl ltac:(lia)).
    assert (D16 : digit0 c < 16).
    { rewrite <- (alpha_char_inv c C) in T.
      destruct (Z.lt_ge_cases (digit0 c) 16); [assumption|].
      destruct (Z.eq_dec (digit0 c) 16) as [E|N].
      - rewrite E in T. change (zb (alpha 16)) with 107 in T. lia.
      - pose proof (proj2 (alpha_mono 16 (digit0 c) ltac:(unfold dg; lia) D) ltac:(lia)) as M.
        change (zb (alpha 16)) with 107 in M. lia. }
    rewrite Z.mod_small by lia. rewrite alpha_name_char by exact D. now rewrite alpha_char_inv.
Qed.
Lemma normalise_canonical s : canonical_name s -> normalise s = s.
Proof.
  intros [L [F [T J]]]. unfold normalise. rewrite clean_canonical; auto.
  - now apply strip_id.
  - lia.
  - unfold zlen. lia.
Qed.

Lemma NewName_range s : 0 <= NewName s < two64.
Proof. unfold NewName. rewrite stringToName_digits. apply word_bound, sdigits_ok. Qed.

Theorem name_fixed s : Name_String (NewName s) = s <-> canonical_name s.
Proof.
  split.
  - intros E. rewrite <- E. apply name_canonical, NewName_range.
  - intros C. rewrite name_normalise. fold (eff s). rewrite eff_small; [now apply normalise_canonical|].
    destruct C as [L _]. unfold zlen. lia.
Qed.

(** ** Order *)
Lemma str_lt_irrefl a : ~ str_lt a a.
Proof. induction a as [|x a IH]; cbn [str_lt]; [auto|]. intros [H|[_ H]]; [lia|auto]. Qed.
Lemma str_lt_trans a : forall b c, str_lt a b -> str_lt b c -> str_lt a c.
Proof.
  induction a as [|x a IH]; intros [|y b] [|z c]; cbn [str_lt]; try tauto.
  intros [H|[-> H]] [K|[-> K]]; auto; try (left; lia). right; split; [reflexivity|]. eapply IH; eauto.
Qed.
Lemma zb_inj a b : zb a = zb b -> a = b.
Proof. intros H. rewrite <- (bz_zb a), <- (bz_zb b). now f_equal. Qed.
Lemma str_lt_total a : forall b, str_lt a b \/ a = b \/ str_lt b a.
Proof.
  induction a as [|x a IH]; intros [|y b]; cbn [str_lt]; auto.
  destruct (Z.lt_trichotomy (zb x) (zb y)) as [H|[H|H]]; auto.
  apply zb_inj in H. subst. destruct (IH b) as [K|[->|K]]; auto.
Qed.

Lemma alpha_str_lt l : forall m, length l = length m -> Forall dg l -> Forall dg m ->
  str_lt (strip (map alpha l)) (strip (map alpha m)) -> val l 0 < val m 0.
Proof.
  induction l as [|d l IH]; intros [|e m] L F G H; try discriminate L; [cbn in H; tauto|].
  injection L as L. inversion F as [|? ? Fd Fl]; inversion G as [|? ? Ge Gm]; subst.
  cbn [val]. rewrite !(val_acc _ (32 * 0 + _)). unfold zlen. rewrite <- L.
  pose proof (val_bound l Fl) as Bl. pose proof (val_bound m Gm) as Bm. unfold zlen in Bl, Bm. rewrite <- L in Bm.
  set (P := 32 ^ Z.of_nat (length l)) in *.
  cbn [map strip] in H.
  assert (C : d < e \/ (d = e /\ str_lt (strip (map alpha l)) (strip (map alpha m)))).
  { destruct (strip (map alpha l)) as [|x s] eqn:El; destruct (strip (map alpha m)) as [|y t] eqn:Em.
    - destruct (Byte.eqb (alpha d) x2e) eqn:Bd; destruct (Byte.eqb (alpha e) x2e) eqn:Be; cbn [str_lt] in H; try tauto.
      + apply eqb_eq, alpha_dot in Bd; [|assumption]. subst. left.
        assert (e <> 0) by (intros ->; discriminate Be). unfold dg in *. lia.
      + destruct H as [H|[_ []]]. left. now apply alpha_mono.
    - destruct (Byte.eqb (alpha d) x2e) eqn:Bd; cbn [str_lt] in H.
      + apply eqb_eq, alpha_dot in Bd; [|assumption]. subst. unfold dg in *.
        destruct (Z.eq_dec e 0); [right; cbn; auto|left; lia].
      + destruct H as [H|[H _]]; [left; now apply alpha_mono|].
        right. split; [now apply alpha_inj|exact I].
    - destruct (Byte.eqb (alpha e) x2e) eqn:Be; cbn [str_lt] in H; [tauto|].
      destruct H as [H|[_ H]]; [left; now apply alpha_mono|]. now destruct s.
    - cbn [str_lt] in H. destruct H as [H|[H1 H2]]; [left; now apply alpha_mono|].
      right. split; [now apply alpha_inj|exact H2]. }
  destruct C as [C|[-> C]]; [nia|]. apply IH in C; auto. lia.
Qed.

Lemma str_lt_word l d m e : digits_ok l d -> digits_ok m e ->
  str_lt (strip (map alpha (l ++ [d]))) (strip (map alpha (m ++ [e]))) -> word l d < word m e.
Proof.
  intros [L [F D]] [M [G E]] H. apply alpha_str_lt in H.
  - rewrite !val_snoc in H. unfold word. lia.
  - rewrite !app_length, L, M. reflexivity.
  - apply Forall_app. split; [assumption|]. constructor; [unfold dg; lia|constructor].
  - apply Forall_app. split; [assumption|]. constructor; [unfold dg; lia|constructor].
Qed.

Theorem name_order a b : 0 <= a < two64 -> 0 <= b < two64 ->
  (a < b <-> str_lt (Name_String a) (Name_String b)).
Proof.
  intros Ha Hb.
  assert (W : forall x y, 0 <= x < two64 -> 0 <= y < two64 ->
    str_lt (Name_String x) (Name_String y) -> x < y).
  { intros x y Hx Hy.
    destruct (word_exists x Hx) as [l [d [K E]]]. destruct (word_exists y Hy) as [m [e [K' E']]].
    rewrite (name_string _ _ _ K E), (name_string _ _ _ K' E'). rewrite E, E'. now apply str_lt_word. }
  split; [|now apply W]. intros L.
  destruct (str_lt_total (Name_String a) (Name_String b)) as [H|[H|H]]; [exact H| |].
  - apply (f_equal NewName) in H. rewrite !name_roundtrip in H by assumption. lia.
  - apply W in H; auto. lia.
Qed.
