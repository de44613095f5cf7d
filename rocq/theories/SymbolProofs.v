From Verif Require Import Base BaseProofs GoStd GoStdProofs SpecText Symbol SpecSymbol.
From Verif Require Chain.
Ltac Zify.zify_post_hook ::= Z.div_mod_to_equations.

(** ** Packing *)
Lemma name_code_bound s : Forall upper s -> 0 <= name_code s < 256 ^ zlen s.
Proof.
  intros H. induction H as [|c s Hc Hs IH]; [cbn; lia|]. cbn [name_code].
  rewrite zlen_cons, Z.pow_add_r by (pose proof (zlen_nonneg s); lia). unfold upper in Hc.
  change (256 ^ 1) with 256. lia.
Qed.
Lemma pow256 k : 0 <= k -> 256 ^ k = 2 ^ (8 * k).
Proof. intros H. now rewrite Z.pow_mul_r by lia. Qed.

Lemma rawSymbol_loop_ok s : Forall upper s -> forall i rv, 0 <= i -> i + zlen s <= 7 ->
  0 <= rv < 256 ^ (i + 1) ->
  rawSymbol_loop i s rv = Ok (rv + 256 ^ (i + 1) * name_code s).
Proof.
  intros H. induction H as [|c s Hc Hs IH]; intros i rv Hi Hl Hr; cbn [rawSymbol_loop name_code]; [f_equal; lia|].
  unfold upper in Hc. rewrite zlen_cons in Hl. pose proof (zlen_nonneg s).
  destruct (Z.leb_spec 65 (zb c)); [|lia]. destruct (Z.leb_spec (zb c) 90); [|lia]. cbn [andb negb].
  assert (P : 256 ^ (i + 1) <= 256 ^ 7) by (apply Z.pow_le_mono_r; lia).
  assert (P1 : 256 ^ (i + 1 + 1) = 256 * 256 ^ (i + 1)) by (rewrite (Z.pow_add_r 256 (i + 1)) by lia; change (256 ^ 1) with 256; lia).
  change (256 ^ 7) with 72057594037927936 in P.
  unfold u64. rewrite Z.shiftl_mul_pow2 by lia. rewrite <- pow256 by lia.
  rewrite Z.mod_small by nia.
  assert (E : Z.lor rv (zb c * 256 ^ (i + 1)) = rv + zb c * 256 ^ (i + 1)).
  { rewrite (pow256 (i + 1)) in * by lia. rewrite <- Z.shiftl_mul_pow2 by lia.
    rewrite lor_add_disjoint by lia. rewrite Z.shiftl_mul_pow2 by lia. reflexivity. }
  rewrite E, IH; [f_equal; rewrite P1; ring|lia|lia|]. rewrite P1. nia.
Qed.
Lemma rawSymbol_loop_inv s : forall i rv v, rawSymbol_loop i s rv = Ok v -> Forall upper s.
Proof.
  induction s as [|c s IH]; intros i rv v; cbn [rawSymbol_loop]; [constructor|].
  destruct (Z.leb_spec 65 (zb c)); cbn [andb negb]; [|discriminate].
  destruct (Z.leb_spec (zb c) 90); cbn [andb negb]; [|discriminate].
  intros E. constructor; [unfold upper; lia|]. eapply IH; eauto.
Qed.
Lemma rawSymbol_loop_nopanic s : forall i rv m, rawSymbol_loop i s rv <> Panic m.
Proof.
  induction s as [|c s IH]; intros i rv m; cbn [rawSymbol_loop]; [discriminate|].
  destruct (negb _); [discriminate|apply IH].
Qed.

Lemma rawSymbolValue_ok p s v : 0 <= p ->
  (rawSymbolValue p s = Ok v <-> p <= 18 /\ symbol_name s /\ v = symbol_of p s).
Proof.
  intros Hp. unfold rawSymbolValue.
  destruct (Z.ltb_spec 18 p) as [H|H]; [split; [discriminate|lia]|].
  destruct (Z.ltb_spec 7 (zlen s)) as [L|L].
  { split; [discriminate|]. intros [_ [[X _] _]]. unfold zlen in L. lia. }
  assert (R : forall w, rbind (rawSymbol_loop 0 s 0) (fun rv => Ok (Z.lor rv p)) = Ok w <->
     Forall upper s /\ w = symbol_of p s).
  { assert (LOR : forall x, Z.lor (0 + 256 ^ (0 + 1) * x) p = p + 256 * x).
    { intros x. replace (0 + 256 ^ (0 + 1) * x) with (x * 2 ^ 8) by (change (256 ^ (0 + 1)) with (2 ^ 8); ring).
      rewrite lor_hi; change (2 ^ 8) with 256; lia. }
    intros w. split.
    - destruct (rawSymbol_loop 0 s 0) as [rv| |] eqn:E; cbn [rbind]; try discriminate.
      pose proof (rawSymbol_loop_inv _ _ _ _ E) as U. rewrite rawSymbol_loop_ok in E; try assumption; try lia.
      assert (rv = 0 + 256 ^ (0 + 1) * name_code s) as -> by congruence. rewrite LOR.
      intros [= <-]. split; [exact U|reflexivity].
    - intros [U ->]. rewrite rawSymbol_loop_ok; try assumption; try lia. cbn [rbind]. rewrite LOR. reflexivity. }
  rewrite R. unfold symbol_name, zlen in *. intuition lia.
Qed.
Lemma rawSymbolValue_nopanic p s m : rawSymbolValue p s <> Panic m.
Proof.
  unfold rawSymbolValue. destruct (_ <? _); [discriminate|]. destruct (_ <? _); [discriminate|].
  destruct (rawSymbol_loop 0 s 0) eqn:E; cbn [rbind]; try discriminate. now apply rawSymbol_loop_nopanic in E.
Qed.

(** ** Reading the parts back *)
Lemma symbol_of_decimals p s : 0 <= p < 256 -> Symbol_Decimals (symbol_of p s) = p.
Proof.
  intros H. unfold Symbol_Decimals, symbol_of. rewrite (Z.land_ones _ 8) by lia. change (2 ^ 8) with 256. lia.
Qed.
Lemma symbol_of_code p s : 0 <= p < 256 -> Symbol_Code (symbol_of p s) = name_code s.
Proof.
  intros H. unfold Symbol_Code, symbol_of. rewrite Z.shiftr_div_pow2 by lia. change (2 ^ 8) with 256. lia.
Qed.
Lemma Name_loop_ok s : Forall upper s -> forall fuel rv, (length s < fuel)%nat ->
  Symbol_Name_loop fuel (name_code s) rv = rv ++ s.
Proof.
  intros H. induction H as [|c s Hc Hs IH]; intros fuel rv Hf; (destruct fuel as [|fuel]; [cbn in Hf; lia|]).
  - cbn. now rewrite app_nil_r.
  - cbn [Symbol_Name_loop name_code]. pose proof (name_code_bound s Hs). unfold upper in Hc.
    destruct (Z.ltb_spec 0 (zb c + 256 * name_code s)); [|lia].
    rewrite Z.shiftr_div_pow2 by lia. change (2 ^ 8) with 256.
    replace ((zb c + 256 * name_code s) / 256) with (name_code s) by lia.
    replace (u8 (zb c + 256 * name_code s)) with (zb c) by (unfold u8; lia).
    rewrite put_rune_ascii, bz_zb by lia. rewrite IH by (cbn in Hf; lia). rewrite <- app_assoc. reflexivity.
Qed.
Lemma symbol_of_name p s : 0 <= p < 256 -> symbol_name s -> Symbol_Name (symbol_of p s) = s.
Proof.
  intros Hp [L U]. unfold Symbol_Name. change (Z.shiftr (symbol_of p s) 8) with (Symbol_Code (symbol_of p s)).
  rewrite symbol_of_code by exact Hp. apply (Name_loop_ok s U 8 []). lia.
Qed.

Lemma p10_loop_wrap k : forall x, p10_loop k (i64 x) = i64 (x * 10 ^ Z.of_nat k).
Proof.
  induction k as [|k IH]; intros x; cbn [p10_loop]; [f_equal; cbn; lia|].
  replace (i64 (i64 x * 10)) with (i64 (x * 10)) by (unfold i64; lia).
  rewrite IH. f_equal. rewrite Nat2Z.inj_succ, Z.pow_succ_r by lia. ring.
Qed.
Lemma Decimals_range s : 0 <= Symbol_Decimals s < 256.
Proof. unfold Symbol_Decimals. rewrite (Z.land_ones _ 8) by lia. change (2 ^ 8) with 256. lia. Qed.
Lemma Precision_wrap s : Symbol_Precision s = i64 (10 ^ Symbol_Decimals s).
Proof.
  unfold Symbol_Precision. change 1 with (i64 1) at 1. rewrite p10_loop_wrap.
  pose proof (Decimals_range s). rewrite Z2Nat.id by lia. f_equal. lia.
Qed.
Lemma pow10_18 d : 0 <= d <= 18 -> 1 <= 10 ^ d <= 1000000000000000000.
Proof.
  intros H. split; [apply (Z.pow_le_mono_r 10 0 d); lia|].
  change 1000000000000000000 with (10 ^ 18). apply Z.pow_le_mono_r; lia.
Qed.
Lemma Precision_small s : Symbol_Decimals s <= 18 -> Symbol_Precision s = 10 ^ Symbol_Decimals s.
Proof.
  intros H. rewrite Precision_wrap. pose proof (Decimals_range s). pose proof (pow10_18 (Symbol_Decimals s) ltac:(lia)).
  unfold i64. lia.
Qed.
Lemma Precision_zero s : Symbol_Precision s = 0 <-> 64 <= Symbol_Decimals s.
Proof.
  rewrite Precision_wrap. pose proof (Decimals_range s) as R. set (d := Symbol_Decimals s) in *. split.
  - intros E. destruct (Z.le_gt_cases 64 d) as [|L]; [assumption|exfalso].
    assert (X : forallb (fun k => negb (i64 (10 ^ Z.of_nat k) =? 0)) (seq 0 64) = true) by (vm_compute; reflexivity).
    rewrite forallb_forall in X. specialize (X (Z.to_nat d)).
    rewrite Z2Nat.id, E in X by lia. discriminate X. apply in_seq. lia.
  - intros L. replace (10 ^ d) with (10 ^ (d - 64) * 5 ^ 64 * two64).
    + unfold i64. lia.
    + replace d with ((d - 64) + 64) at 2 by lia. rewrite Z.pow_add_r by lia.
      rewrite <- Z.mul_assoc. reflexivity.
Qed.

(** ** NewSymbolFromString *)
Lemma int_text_chars s v c : int_text s v -> In c s -> digit c \/ c = x2d \/ c = x2b.
Proof.
  intros I H. inversion I as [? N D|? N D|? N D]; subst; unfold digits in D; rewrite Forall_forall in D.
  - left. auto.
  - destruct H as [<-|H]; auto.
  - destruct H as [<-|H]; auto.
Qed.
Lemma upper_not_in s c : Forall upper s -> ~ upper c -> ~ In c s.
Proof. intros U N H. rewrite Forall_forall in U. auto. Qed.

Lemma NewSymbolFromString_ok s v :
  NewSymbolFromString s = Ok v <->
  exists pt name p, s = pt ++ x2c :: name /\ int_text pt p /\ 0 <= p <= 18 /\ symbol_name name
                    /\ v = symbol_of p name.
Proof.
  unfold NewSymbolFromString. split.
  - destruct (Split s x2c) as [|p0 [|p1 [|]]] eqn:S; try discriminate.
    apply Split_two in S as [-> _]. destruct (ParseInt p0 8) as [p| |] eqn:E; cbn [rbind]; try discriminate.
    apply ParseInt_ok in E as [I R]; [|lia]. change (2 ^ (8 - 1)) with 128 in R.
    intros H. apply rawSymbolValue_ok in H as [L [N V]]; [|unfold u8; lia].
    exists p0, p1, p. unfold u8 in *. assert (p mod 256 = p) by lia. rewrite H in *.
    repeat split; auto; try lia; apply N.
  - intros (pt & name & p & -> & I & R & N & ->).
    assert (S : Split (pt ++ x2c :: name) x2c = [pt; name]).
    { apply Split_two. split; [reflexivity|]. split.
      - intros H. destruct (int_text_chars _ _ _ I H) as [D|[D|D]]; try discriminate D. unfold digit in D. cbn in D. lia.
      - apply upper_not_in; [apply N|]. unfold upper. cbn. lia. }
    rewrite S. assert (E : ParseInt pt 8 = Ok p) by (apply ParseInt_ok; [lia|]; split; [exact I|]; change (2 ^ (8 - 1)) with 128; lia).
    rewrite E. cbn [rbind]. apply rawSymbolValue_ok; unfold u8; [lia|]. rewrite Z.mod_small by lia. auto with zarith.
Qed.
Lemma NewSymbolFromString_nopanic s m : NewSymbolFromString s <> Panic m.
Proof.
  unfold NewSymbolFromString. destruct (Split s x2c) as [|p0 [|p1 [|]]]; try discriminate.
  destruct (ParseInt p0 8) eqn:E; cbn [rbind]; try discriminate.
  - apply rawSymbolValue_nopanic.
  - now apply ParseInt_nopanic in E.
Qed.

Lemma Symbol_String_of p name : 0 <= p <= 18 -> symbol_name name ->
  Symbol_String (symbol_of p name) = FormatUint p ++ x2c :: name.
Proof.
  intros Hp N. unfold Symbol_String. rewrite symbol_of_decimals, symbol_of_name by (auto; lia).
  unfold FormatInt. destruct (Z.ltb_spec p 0); [lia|]. reflexivity.
Qed.
Lemma symbol_roundtrip p name : 0 <= p <= 18 -> symbol_name name ->
  NewSymbolFromString (Symbol_String (symbol_of p name)) = Ok (symbol_of p name).
Proof.
  intros Hp N. rewrite Symbol_String_of by assumption. apply NewSymbolFromString_ok.
  exists (FormatUint p), name, p. repeat split; try lia; try apply N.
  replace p with (dec_val (FormatUint p)) at 2 by (apply FormatUint_val; lia).
  constructor; [apply FormatUint_ne; lia|apply FormatUint_digits; lia].
Qed.

(** ** SymbolCode *)
Lemma symbolcode_ok text v : NewSymbolFromString (str "0," ++ text) = Ok v <-> symbol_name text /\ v = symbol_of 0 text.
Proof.
  rewrite NewSymbolFromString_ok. split.
  - intros (pt & name & p & E & I & R & N & ->).
    assert (Q : pt = [x30] /\ name = text).
    { change (str "0," ++ text) with ([x30] ++ x2c :: text) in E.
      assert (S1 : Split (pt ++ x2c :: name) x2c = [pt; name]).
      { apply Split_two. split; [reflexivity|]. split.
        - intros H. destruct (int_text_chars _ _ _ I H) as [D|[D|D]]; try discriminate D. unfold digit in D. cbn in D. lia.
        - apply upper_not_in; [apply N|]. unfold upper. cbn. lia. }
      rewrite <- E in S1. apply Split_two in S1 as [E2 [H1 H2]].
      destruct pt as [|c pt]; cbn [app] in E2; [discriminate|]. injection E2 as <- E2.
      destruct pt as [|c pt]; cbn [app] in E2; [injection E2 as <-; auto|].
      injection E2 as <- E2. elim H1. right. now left. }
    destruct Q as [-> ->]. split; [exact N|].
    assert (p = 0); [|now subst]. apply (int_text_fun [x30]); [exact I|].
    change 0 with (dec_val [x30]). constructor; [discriminate|]. constructor; [unfold digit; cbn; lia|constructor].
  - intros [N ->]. exists [x30], text, 0. split; [reflexivity|]. split.
    + change 0 with (dec_val [x30]). constructor; [discriminate|]. constructor; [unfold digit; cbn; lia|constructor].
    + repeat split; try lia; apply N.
Qed.
Lemma symbolcode_text name : symbol_name name -> SymbolCode_MarshalText (name_code name) = name.
Proof.
  intros N. unfold SymbolCode_MarshalText. rewrite <- (symbol_of_name 0 name) at 2; [|lia|exact N].
  f_equal. destruct N as [L U]. pose proof (name_code_bound name U) as B.
  assert (256 ^ zlen name <= 256 ^ 7) by (apply Z.pow_le_mono_r; unfold zlen; lia).
  change (256 ^ 7) with 72057594037927936 in *.
  unfold symbol_of, u64. rewrite Z.shiftl_mul_pow2 by lia. change (2 ^ 8) with 256. lia.
Qed.

(** ** Asset parsing *)
Lemma loop_frac s : forall i prec b r, 0 < i -> 0 <= prec <= 18 ->
  asset_loop (runes i s) true prec b = Ok r <->
  digits s /\ prec + zlen s <= 18 /\ r = (prec + zlen s, b ++ s).
Proof.
  induction s as [|c s IH]; intros i prec b r Hi Hp.
  - cbn [runes asset_loop]. change (zlen (@nil byte)) with 0. rewrite app_nil_r, Z.add_0_r.
    split; [intros [= <-]; repeat split; [constructor|lia]|]. intros [_ [_ ->]]. reflexivity.
  - assert (HH : 128 <= zb c -> ~ digits (c :: s)) by (intros H D; inversion D as [|? ? X]; unfold digit in X; lia).
    destruct (Z.lt_ge_cases (zb c) 128) as [A|A].
    + rewrite runes_ascii by exact A. cbn [asset_loop].
      assert (DC : digits (c :: s) -> 48 <= zb c <= 57) by (intros D; inversion D as [|? ? X]; exact X).
      destruct (Z.eqb_spec (zb c) 46) as [E|E]; [split; [discriminate|intros [D _]; apply DC in D; lia]|].
      destruct (Z.eqb_spec i 0); [lia|]. rewrite andb_false_r. cbv zeta iota. cbn [andb].
      replace (u8 (prec + 1)) with (prec + 1) by (unfold u8; lia).
      rewrite zlen_cons. pose proof (zlen_nonneg s).
      destruct (Z.ltb_spec 18 (prec + 1)); [split; [discriminate|lia]|].
      destruct ((48 <=? zb c) && (zb c <=? 57)) eqn:D.
      * rewrite IH by lia. rewrite put_rune_ascii, bz_zb by (pose proof (zb_range c); lia).
        rewrite <- app_assoc. cbn [app]. replace (prec + 1 + zlen s) with (prec + (1 + zlen s)) by lia.
        split; intros [X [Y Z]]; repeat split; auto; [constructor; [unfold digit; lia|exact X]|now inversion X].
      * split; [discriminate|]. intros [X _]. apply DC in X. lia.
    + destruct (runes_high i c s A) as [q [rest [E Q]]]. rewrite E. cbn [asset_loop].
      destruct (Z.eqb_spec q 46); [lia|]. destruct (Z.eqb_spec q 45); [lia|]. cbv zeta iota. cbn [andb].
      assert (N : forall r', Err ErrInvalidAssetString = Ok r' <-> digits (c :: s) /\ prec + zlen (c :: s) <= 18 /\ r' = (prec + zlen (c :: s), b ++ c :: s)).
      { intros r'. split; [discriminate|]. intros [D _]. now apply HH in D. }
      destruct (18 <? _); [apply N|]. destruct (Z.leb_spec q 57); [lia|]. rewrite andb_false_r. apply N.
Qed.

(** Unsigned amount from position [i]: either not at the start, or not a sign. *)
Lemma loop_int s : forall i b r, 0 <= i -> (0 < i \/ hd x00 s <> x2d) ->
  asset_loop (runes i s) false 0 b = Ok r <->
  exists point ip fp, s = ip ++ (if point : bool then x2e :: fp else []) /\ digits ip /\ digits fp
    /\ (point = false -> fp = []) /\ zlen fp <= 18 /\ r = (zlen fp, b ++ ip ++ fp).
Proof.
  induction s as [|c s IH]; intros i b r Hi Hs.
  - cbn [runes asset_loop]. split.
    + intros [= <-]. exists false, [], []. rewrite !app_nil_r.
      split; [reflexivity|]. split; [apply Forall_nil|]. split; [apply Forall_nil|]. split; [reflexivity|]. split; [cbn; lia|reflexivity].
    + intros (pt & ip & fp & E & _ & _ & F & _ & ->). destruct ip; [|discriminate]. destruct pt; [discriminate|].
      rewrite F by reflexivity. cbn. now rewrite app_nil_r.
  - assert (FST : forall point ip fp, c :: s = ip ++ (if point : bool then x2e :: fp else []) -> digits ip ->
                   (c = x2e /\ point = true /\ ip = [] /\ s = fp) \/
                   (digit c /\ exists ip', ip = c :: ip' /\ digits ip' /\ s = ip' ++ (if point then x2e :: fp else []))).
    { intros pt ip fp E D. destruct ip as [|x ip].
      - destruct pt; [|discriminate]. cbn [app] in E. injection E as -> ->. auto.
      - cbn [app] in E. injection E as -> ->. inversion D; subst. right. split; [assumption|]. eauto. }
    destruct (Z.lt_ge_cases (zb c) 128) as [A|A].
    + rewrite runes_ascii by exact A. cbn [asset_loop].
      destruct (Z.eqb_spec (zb c) 46) as [E|E].
      { assert (c = x2e) by (rewrite <- (bz_zb c), E; reflexivity). subst c.
        rewrite loop_frac by lia. rewrite Z.add_0_l. split.
        - intros [D [L ->]]. exists true, [], s. cbn [app].
          split; [reflexivity|]. split; [apply Forall_nil|]. split; [exact D|]. split; [discriminate|]. split; [exact L|reflexivity].
        - intros (pt & ip & fp & Q & Di & Df & F & L & ->).
          destruct (FST _ _ _ Q Di) as [(_ & -> & -> & ->)|[X _]]; [auto|]. unfold digit in X. cbn in X. lia. }
      assert (NS : (zb c =? 45) && (i =? 0) = false).
      { destruct (Z.eqb_spec (zb c) 45) as [E5|]; [|reflexivity]. destruct (Z.eqb_spec i 0); [|reflexivity].
        exfalso. destruct Hs as [Hs|Hs]; [lia|]. apply Hs. cbn [hd]. rewrite <- (bz_zb c), E5. reflexivity. }
      rewrite NS. cbv zeta iota. cbn [andb].
      destruct ((48 <=? zb c) && (zb c <=? 57)) eqn:D.
      * rewrite IH by lia. rewrite put_rune_ascii, bz_zb by (pose proof (zb_range c); lia). split.
        -- intros (pt & ip & fp & -> & Di & Df & F & L & ->). exists pt, (c :: ip), fp.
           repeat split; auto; [constructor; [unfold digit; lia|exact Di]|].
           rewrite <- app_assoc. reflexivity.
        -- intros (pt & ip & fp & Q & Di & Df & F & L & ->).
           destruct (FST _ _ _ Q Di) as [(-> & _)|[X (ip' & -> & Di' & ->)]]; [cbn in E; lia|].
           exists pt, ip', fp. repeat split; auto. rewrite <- app_assoc. reflexivity.
      * split; [discriminate|]. intros (pt & ip & fp & Q & Di & _).
        destruct (FST _ _ _ Q Di) as [(-> & _)|[X _]]; [cbn in E; lia|]. unfold digit in X. lia.
    + destruct (runes_high i c s A) as [q [rest [E Q]]]. rewrite E. cbn [asset_loop].
      destruct (Z.eqb_spec q 46); [lia|]. destruct (Z.eqb_spec q 45); [lia|]. cbv zeta iota. cbn [andb].
      destruct (Z.leb_spec q 57); [lia|]. rewrite andb_false_r.
      split; [discriminate|]. intros (pt & ip & fp & QQ & Di & _).
      destruct (FST _ _ _ QQ Di) as [(-> & _)|[X _]]; [cbn in A; lia|unfold digit in X; lia].
Qed.

(** Whole amount. *)
Lemma loop_amount s r : asset_loop (runes 0 s) false 0 [] = Ok r <->
  exists neg point ip fp, s = (if neg : bool then [x2d] else []) ++ ip ++ (if point : bool then x2e :: fp else [])
    /\ digits ip /\ digits fp /\ (point = false -> fp = []) /\ zlen fp <= 18
    /\ r = (zlen fp, (if neg then [x2d] else []) ++ ip ++ fp).
Proof.
  assert (DC : hd x00 s = x2d \/ hd x00 s <> x2d).
  { destruct (Byte.eqb (hd x00 s) x2d) eqn:E; [left; now apply Byte.byte_dec_bl|].
    right. intros X. rewrite X in E. discriminate. }
  destruct DC as [H|H].
  - destruct s as [|c s]; [discriminate|]. cbn [hd] in H. subst c.
    rewrite runes_ascii by (cbn; lia). cbn [asset_loop]. change (zb x2d =? 46) with false.
    change ((zb x2d =? 45) && (0 =? 0)) with true. cbv zeta iota. change (put_rune (zb x2d)) with [x2d]. cbn [app].
    rewrite loop_int by lia. split.
    + intros (pt & ip & fp & -> & K). exists true, pt, ip, fp. split; [reflexivity|exact K].
    + intros (neg & pt & ip & fp & E & Di & K). destruct neg.
      * injection E as ->. exists pt, ip, fp. auto.
      * exfalso. cbn [app] in E. destruct ip as [|x ip].
        -- destruct pt; discriminate E.
        -- injection E as <- _. inversion Di as [|? ? X]. unfold digit in X. cbn in X. lia.
  - rewrite loop_int by (auto; lia). split.
    + intros (pt & ip & fp & -> & K). exists false, pt, ip, fp. split; [reflexivity|exact K].
    + intros (neg & pt & ip & fp & E & K). destruct neg.
      * subst s. elim H. reflexivity.
      * exists pt, ip, fp. split; [exact E|exact K].
Qed.

Lemma signed_digits neg ds v : digits ds ->
  (int_text ((if neg : bool then [x2d] else []) ++ ds) v <->
   ds <> [] /\ v = (if neg then - dec_val ds else dec_val ds)).
Proof.
  intros D. destruct neg; cbn [app]; split.
  - intros I. inversion I as [? N D'| |? N D']; subst; auto.
    inversion D' as [|? ? X]. unfold digit in X. cbn in X. lia.
  - intros [N ->]. now constructor.
  - intros I. inversion I as [? N D'|? N D'|? N D']; subst; auto;
      inversion D as [|? ? X]; unfold digit in X; cbn in X; lia.
  - intros [N ->]. now constructor.
Qed.

Lemma bytes_eqb_nil s : bytes_eqb s [] = true <-> s = [].
Proof. destruct s; cbn; split; congruence. Qed.

Theorem NewAssetFromString_ok s a :
  NewAssetFromString s = Ok a <->
  exists value decimals name,
    asset_text s value decimals name /\ decimals <= 18 /\ name <> [] /\ symbol_name name
    /\ - 2 ^ 63 <= value < 2 ^ 63
    /\ a = {| Chain.Value := value; Chain.Sym := symbol_of decimals name |}.
Proof.
  unfold NewAssetFromString. split.
  - destruct (Split s x20) as [|p0 [|p1 [|]]] eqn:S; try discriminate.
    apply Split_two in S as [-> _].
    destruct (bytes_eqb p0 [] || bytes_eqb p1 []) eqn:B; [discriminate|].
    apply orb_false_iff in B as [B0 B1].
    destruct (asset_loop (runes 0 p0) false 0 []) as [[prec bl]| |] eqn:E; cbn [rbind]; try discriminate.
    apply loop_amount in E as (neg & pt & ip & fp & -> & Di & Df & F & L & Q). injection Q as -> ->.
    destruct (ParseInt _ 64) as [units| |] eqn:P; cbn [rbind]; try discriminate.
    apply ParseInt_ok in P as [I R]; [|lia].
    apply signed_digits in I as [N V]; [|apply Forall_app; auto].
    unfold NewSymbol. destruct (rawSymbolValue _ p1) as [sy| |] eqn:Y; cbn [rbind]; try discriminate.
    apply rawSymbolValue_ok in Y as [_ [SN ->]]; [|apply zlen_nonneg]. intros [= <-].
    exists units, (zlen fp), p1.
    split; [|repeat split; auto; try apply SN; try (apply R); intros X; apply bytes_eqb_nil in X; congruence].
    eexists. split; [reflexivity|]. exists neg, pt, ip, fp. repeat split; auto.
  - intros (value & decimals & name & (amount & -> & (neg & pt & ip & fp & -> & Di & Df & F & N & -> & V)) & L & NN & SN & R & ->).
    set (amount := (if neg then [x2d] else []) ++ ip ++ (if pt then x2e :: fp else [])).
    assert (NE : amount <> []).
    { subst amount. destruct neg; [discriminate|]. destruct ip; [|discriminate]. destruct pt; [discriminate|].
      rewrite F in N by reflexivity. now elim N. }
    assert (NoSp : ~ In x20 amount).
    { assert (DD : forall l, digits l -> ~ In x20 l).
      { intros l D X. unfold digits in D. rewrite Forall_forall in D. apply D in X. unfold digit in X. cbn in X. lia. }
      subst amount. intros X. apply in_app_or in X as [X|X].
      - destruct neg; cbn in X; intuition discriminate.
      - apply in_app_or in X as [X|X]; [now apply DD in X|]. destruct pt; [|exact X].
        destruct X as [X|X]; [discriminate X|now apply DD in X]. }
    assert (S : Split (amount ++ x20 :: name) x20 = [amount; name]).
    { apply Split_two. split; [reflexivity|]. split; [exact NoSp|]. apply upper_not_in; [apply SN|]. unfold upper. cbn. lia. }
    rewrite S.
    assert (B : bytes_eqb amount [] || bytes_eqb name [] = false).
    { apply orb_false_iff. split; apply not_true_is_false; intros X; apply bytes_eqb_nil in X; contradiction. }
    rewrite B.
    assert (E : asset_loop (runes 0 amount) false 0 [] = Ok (zlen fp, (if neg then [x2d] else []) ++ ip ++ fp)).
    { apply loop_amount. exists neg, pt, ip, fp. repeat split; auto. }
    rewrite E. cbn [rbind].
    assert (P : ParseInt ((if neg then [x2d] else []) ++ ip ++ fp) 64 = Ok value).
    { apply ParseInt_ok; [lia|]. split; [|exact R]. apply signed_digits; [now apply Forall_app|]. auto. }
    rewrite P. cbn [rbind]. unfold NewSymbol.
    rewrite (proj2 (rawSymbolValue_ok (zlen fp) name (symbol_of (zlen fp) name) (zlen_nonneg fp))); [reflexivity|].
    auto.
Qed.

Lemma asset_loop_nopanic rs : forall fp p b m, asset_loop rs fp p b <> Panic m.
Proof.
  induction rs as [|[i c] rs IH]; intros fp p b m; cbn [asset_loop]; [discriminate|].
  destruct (c =? 46); [destruct fp; [discriminate|apply IH]|].
  cbv zeta. destruct (_ && _); [apply IH|]. destruct (_ && _); [discriminate|].
  destruct (_ && _); [apply IH|discriminate].
Qed.
Lemma NewAssetFromString_nopanic s m : NewAssetFromString s <> Panic m.
Proof.
  unfold NewAssetFromString. destruct (Split s x20) as [|p0 [|p1 [|]]]; try discriminate.
  destruct (_ || _); [discriminate|].
  destruct (asset_loop _ _ _ _) as [[prec bl]| |] eqn:E; cbn [rbind]; try discriminate; [|now apply asset_loop_nopanic in E].
  destruct (ParseInt bl 64) eqn:P; cbn [rbind]; try discriminate; [|now apply ParseInt_nopanic in P].
  destruct (NewSymbol prec p1) eqn:Y; cbn [rbind]; try discriminate. now apply rawSymbolValue_nopanic in Y.
Qed.

(** ** Asset printing *)
Lemma dec_val_zeros k s : dec_val (repeat x30 k ++ s) = dec_val s.
Proof.
  induction k as [|k IH]; [reflexivity|]. cbn [repeat app]. rewrite dec_val_cons, IH. change (zb x30) with 48. lia.
Qed.
Lemma zero_pad_ok d f : 1 <= d -> 0 <= f < 10 ^ d ->
  digits (zero_pad d (FormatUint f)) /\ zlen (zero_pad d (FormatUint f)) = d /\ dec_val (zero_pad d (FormatUint f)) = f.
Proof.
  intros Hd Hf. unfold zero_pad. split; [|split].
  - apply Forall_app. split; [|apply FormatUint_digits; lia].
    apply Forall_forall. intros c Hc. apply repeat_spec in Hc. subst. unfold digit. cbn. lia.
  - assert (zlen (FormatUint f) <= d).
    { pose proof (FormatUint_numeral f ltac:(lia)) as N. pose proof (numeral_lower _ _ N) as L.
      destruct L as [[_ E]|L]; [rewrite E; cbn; lia|].
      destruct (Z.le_gt_cases (zlen (FormatUint f)) d) as [|G]; [assumption|].
      assert (10 ^ d <= 10 ^ (zlen (FormatUint f) - 1)) by (apply Z.pow_le_mono_r; lia). lia. }
    unfold zlen in *. rewrite app_length, repeat_length. lia.
  - rewrite dec_val_zeros. apply FormatUint_val. lia.
Qed.

Lemma Asset_String_any value sym : - 2 ^ 63 < value < 2 ^ 63 -> Symbol_Decimals sym <= 18 ->
  exists s, Asset_String {| Chain.Value := value; Chain.Sym := sym |} = Ok s
            /\ canonical_asset s value (Symbol_Decimals sym) (Symbol_Name sym).
Proof.
  intros Hv Hd. change (2 ^ 63) with two63 in Hv.
  unfold Asset_String. cbn [Chain.Value Chain.Sym]. rewrite Precision_small by exact Hd.
  assert (Hd0 : 0 <= Symbol_Decimals sym) by (unfold Symbol_Decimals; apply Z.land_nonneg; lia).
  generalize (Symbol_Name sym) as name. revert Hd Hd0. generalize (Symbol_Decimals sym) as d. intros d H1 H0 name.
  assert (Hd : 0 <= d <= 18) by lia. clear H0 H1.
  pose proof (pow10_18 d Hd) as P.
  set (v := if value <? 0 then i64 (- value) else value).
  assert (E : v = Z.abs value) by (subst v; destruct (Z.ltb_spec value 0); [unfold i64|]; lia).
  rewrite E. unfold go_div, go_rem. destruct (Z.eqb_spec (10 ^ d) 0); [lia|]. cbn [rbind].
  rewrite Z.quot_div_nonneg, Z.rem_mod_nonneg by lia.
  assert (Q : i64 (Z.abs value / 10 ^ d) = Z.abs value / 10 ^ d).
  { assert (Z.abs value / 10 ^ d <= Z.abs value) by (apply Z.div_le_upper_bound; nia).
    assert (0 <= Z.abs value / 10 ^ d) by (apply Z.div_pos; lia). unfold i64. lia. }
  rewrite Q.
  assert (QP : 0 <= Z.abs value / 10 ^ d) by (apply Z.div_pos; lia).
  assert (FQ : FormatInt (Z.abs value / 10 ^ d) = FormatUint (Z.abs value / 10 ^ d)).
  { unfold FormatInt. destruct (Z.ltb_spec (Z.abs value / 10 ^ d) 0); [lia|reflexivity]. }
  rewrite FQ. pose proof (FormatUint_numeral _ QP) as NQ.
  pose proof (Z.mod_pos_bound (Z.abs value) (10 ^ d) ltac:(lia)) as MB.
  destruct (Z.ltb_spec 0 d) as [D|D]; cbn [rbind].
  - assert (FR : FormatInt (Z.abs value mod 10 ^ d) = FormatUint (Z.abs value mod 10 ^ d)).
    { unfold FormatInt. destruct (Z.ltb_spec (Z.abs value mod 10 ^ d) 0); [lia|reflexivity]. }
    rewrite FR. destruct (zero_pad_ok d (Z.abs value mod 10 ^ d) ltac:(lia) MB) as [Z1 [Z2 Z3]].
    eexists. split; [reflexivity|]. exists (FormatUint (Z.abs value / 10 ^ d)), (zero_pad d (FormatUint (Z.abs value mod 10 ^ d))).
    destruct (Z.ltb_spec 0 d); [|lia].
    split; [rewrite <- !app_assoc; reflexivity|]. auto.
  - assert (d = 0) by lia. subst d. eexists. split; [reflexivity|].
    exists (FormatUint (Z.abs value / 10 ^ 0)), []. change (0 <? 0) with false. cbv iota.
    split; [rewrite <- !app_assoc; reflexivity|]. split; [constructor|]. split; [reflexivity|]. split; [exact NQ|].
    change (10 ^ 0) with 1. rewrite Z.mod_1_r. reflexivity.
Qed.
Lemma Asset_String_canonical value d name : - 2 ^ 63 < value < 2 ^ 63 -> 0 <= d <= 18 -> symbol_name name ->
  exists s, Asset_String {| Chain.Value := value; Chain.Sym := symbol_of d name |} = Ok s
            /\ canonical_asset s value d name.
Proof.
  intros Hv Hd N. pose proof (Asset_String_any value (symbol_of d name) Hv) as H.
  rewrite symbol_of_decimals, symbol_of_name in H by (auto; lia). apply H. lia.
Qed.
Lemma canonical_asset_text s value d name : 0 <= d -> canonical_asset s value d name -> asset_text s value d name.
Proof.
  intros Hd (ip & fp & -> & Df & L & [NE [Di [V _]]] & Vf).
  exists ((if value <? 0 then [x2d] else []) ++ ip ++ (if 0 <? d then x2e :: fp else [])).
  split; [rewrite <- !app_assoc; reflexivity|].
  exists (value <? 0), (0 <? d), ip, fp. split; [reflexivity|]. split; [exact Di|]. split; [exact Df|].
  split. { intros H. destruct fp; [reflexivity|]. rewrite zlen_cons in L. pose proof (zlen_nonneg fp). lia. }
  split. { destruct ip; [congruence|discriminate]. }
  split; [auto|]. rewrite dec_val_app, L, V, Vf.
  assert (0 < 10 ^ d) by (apply Z.pow_pos_nonneg; lia).
  pose proof (Z.div_mod (Z.abs value) (10 ^ d) ltac:(lia)). destruct (Z.ltb_spec value 0); lia.
Qed.

Theorem asset_roundtrip value d name : - 2 ^ 63 < value < 2 ^ 63 -> 0 <= d <= 18 -> symbol_name name -> name <> [] ->
  exists s, Asset_String {| Chain.Value := value; Chain.Sym := symbol_of d name |} = Ok s
            /\ NewAssetFromString s = Ok {| Chain.Value := value; Chain.Sym := symbol_of d name |}.
Proof.
  intros Hv Hd N NE. destruct (Asset_String_canonical value d name Hv Hd N) as [s [E C]].
  exists s. split; [exact E|]. apply NewAssetFromString_ok. exists value, d, name.
  split; [apply canonical_asset_text; [lia|exact C]|]. repeat split; auto; try lia; apply N.
Qed.

Lemma FormatInt_neg_head v : v < 0 -> exists t, FormatInt v = x2d :: t.
Proof. intros H. unfold FormatInt. destruct (Z.ltb_spec v 0); [eauto|lia]. Qed.

Lemma asset_min_any sym : Symbol_Decimals sym <= 18 ->
  exists t, Asset_String {| Chain.Value := - 2 ^ 63; Chain.Sym := sym |} = Ok (x2d :: x2d :: t).
Proof.
  intros H. assert (H0 : 0 <= Symbol_Decimals sym) by (unfold Symbol_Decimals; apply Z.land_nonneg; lia).
  unfold Asset_String. cbn [Chain.Value Chain.Sym]. rewrite Precision_small by exact H.
  generalize (Symbol_Name sym) as name. revert H H0. generalize (Symbol_Decimals sym) as d. intros d H1 H0 name.
  assert (Hd : 0 <= d <= 18) by lia. clear H0 H1.
  pose proof (pow10_18 d Hd) as P. change (- 2 ^ 63 <? 0) with true. cbv iota zeta.
  change (i64 (- - 2 ^ 63)) with (- two63).
  unfold go_div, go_rem. destruct (Z.eqb_spec (10 ^ d) 0); [lia|]. cbn [rbind].
  rewrite Z.quot_opp_l, Z.quot_div_nonneg by lia.
  assert (1 <= two63 / 10 ^ d) by (apply Z.div_le_lower_bound; lia).
  assert (two63 / 10 ^ d <= two63) by (apply Z.div_le_upper_bound; nia).
  destruct (FormatInt_neg_head (i64 (- (two63 / 10 ^ d)))) as [t E]; [unfold i64; lia|].
  rewrite E.
  destruct (0 <? d); cbn [rbind app]; eexists; reflexivity.
Qed.
Theorem asset_min d name : 0 <= d <= 18 -> symbol_name name ->
  exists t, Asset_String {| Chain.Value := - 2 ^ 63; Chain.Sym := symbol_of d name |} = Ok (x2d :: x2d :: t)
            /\ exists e, NewAssetFromString (x2d :: x2d :: t) = Err e.
Proof.
  intros Hd N.
  assert (REJ : forall t, exists e, NewAssetFromString (x2d :: x2d :: t) = Err e).
  { intros u. destruct (NewAssetFromString (x2d :: x2d :: u)) as [a|e|m] eqn:X; [|eauto|now apply NewAssetFromString_nopanic in X].
    exfalso. apply NewAssetFromString_ok in X as (val & dc & nm & (am & Q & (neg & pt & ip & fp & -> & Di & _)) & _).
    destruct neg; cbn [app] in Q.
    - destruct ip as [|c ip]; cbn [app] in Q.
      + destruct pt; discriminate Q.
      + injection Q as <- _. inversion Di as [|? ? Y]. unfold digit in Y. cbn in Y. lia.
    - destruct ip as [|c ip]; cbn [app] in Q.
      + destruct pt; discriminate Q.
      + injection Q as <- _. inversion Di as [|? ? Y]. unfold digit in Y. cbn in Y. lia. }
  destruct (asset_min_any (symbol_of d name)) as [t E]; [rewrite symbol_of_decimals; lia|]. exists t. split; [exact E|apply REJ].
Qed.

Theorem asset_string_panics a : (exists m, Asset_String a = Panic m) <-> 64 <= Symbol_Decimals (Chain.Sym a).
Proof.
  rewrite <- Precision_zero. unfold Asset_String, go_div, go_rem.
  destruct (Z.eqb_spec (Symbol_Precision (Chain.Sym a)) 0) as [E|E]; cbn [rbind].
  - split; eauto.
  - split; [|congruence]. intros [m H]. destruct (0 <? _) in H; discriminate H.
Qed.
Theorem asset_string_noerr a e : Asset_String a <> Err e.
Proof.
  unfold Asset_String, go_div, go_rem.
  destruct (Symbol_Precision (Chain.Sym a) =? 0); cbn [rbind]; [discriminate|].
  destruct (0 <? _); discriminate.
Qed.
