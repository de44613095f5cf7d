(** Proofs about the JSON forms: strings as RFC 8259 has them. *)
From Verif Require Import Base GoStd BaseProofs SpecText SpecHex SpecJson Json JsonProofs JsonCodecs.

Lemma hex4_get a b c d r : hex4 a b c d r -> get_u4 a b c d = Some r /\ is_hex a = true /\ is_hex b = true /\ is_hex c = true /\ is_hex d = true.
Proof.
  intros (x & y & z & w & A & B & C & D & ->). unfold get_u4, is_hex. change hex_value with hex_val. rewrite A, B, C, D. auto.
Qed.
Lemma code_scalar cs : utf8_char cs -> 0 <= code_point cs <= 1114111 /\ ~ (55296 <= code_point cs <= 57343).
Proof. destruct 1; unfold bytes_in in *; cbn [code_point]; lia. Qed.
Lemma byte_is b z : z = zb b -> bz z = b.
Proof. intros ->. apply bz_zb. Qed.
Lemma same_cons (a b : byte) s t : a = b -> s = t -> a :: s = b :: t.
Proof. congruence. Qed.
Lemma put_rune_char cs : utf8_char cs -> put_rune (code_point cs) = cs.
Proof.
  intros U. destruct (code_scalar cs U) as [R N]. unfold put_rune.
  assert ((code_point cs <? 0) || (1114111 <? code_point cs) || ((55296 <=? code_point cs) && (code_point cs <=? 57343)) = false) as -> by lia.
  clear R N. destruct U as [a A|a b A B|a b c A B C|a b c A B C|a b c A B C|a b c A B C|a b c d A B C D|a b c d A B C D|a b c d A B C D];
    unfold bytes_in in *; cbn [code_point].
  - assert ((zb a <? 128) = true) as -> by lia. f_equal. now apply byte_is.
  - set (r := (zb a - 192) * 64 + (zb b - 128)). assert (R : r = (zb a - 192) * 64 + (zb b - 128)) by reflexivity. clearbody r.
    assert ((r <? 128) = false) as -> by lia. assert ((r <? 2048) = true) as -> by lia.
    repeat (apply same_cons; [apply byte_is; lia|]). reflexivity.
  - set (r := (zb a - 224) * 4096 + (zb b - 128) * 64 + (zb c - 128)). assert (R : r = (zb a - 224) * 4096 + (zb b - 128) * 64 + (zb c - 128)) by reflexivity. clearbody r.
    assert ((r <? 128) = false) as -> by lia. assert ((r <? 2048) = false) as -> by lia. assert ((r <? 65536) = true) as -> by lia.
    repeat (apply same_cons; [apply byte_is; lia|]). reflexivity.
  - set (r := (zb a - 224) * 4096 + (zb b - 128) * 64 + (zb c - 128)). assert (R : r = (zb a - 224) * 4096 + (zb b - 128) * 64 + (zb c - 128)) by reflexivity. clearbody r.
    assert ((r <? 128) = false) as -> by lia. assert ((r <? 2048) = false) as -> by lia. assert ((r <? 65536) = true) as -> by lia.
    repeat (apply same_cons; [apply byte_is; lia|]). reflexivity.
  - set (r := (zb a - 224) * 4096 + (zb b - 128) * 64 + (zb c - 128)). assert (R : r = (zb a - 224) * 4096 + (zb b - 128) * 64 + (zb c - 128)) by reflexivity. clearbody r.
    assert ((r <? 128) = false) as -> by lia. assert ((r <? 2048) = false) as -> by lia. assert ((r <? 65536) = true) as -> by lia.
    repeat (apply same_cons; [apply byte_is; lia|]). reflexivity.
  - set (r := (zb a - 224) * 4096 + (zb b - 128) * 64 + (zb c - 128)). assert (R : r = (zb a - 224) * 4096 + (zb b - 128) * 64 + (zb c - 128)) by reflexivity. clearbody r.
    assert ((r <? 128) = false) as -> by lia. assert ((r <? 2048) = false) as -> by lia. assert ((r <? 65536) = true) as -> by lia.
    repeat (apply same_cons; [apply byte_is; lia|]). reflexivity.
  - set (r := (zb a - 240) * 262144 + (zb b - 128) * 4096 + (zb c - 128) * 64 + (zb d - 128)).
    assert (R : r = (zb a - 240) * 262144 + (zb b - 128) * 4096 + (zb c - 128) * 64 + (zb d - 128)) by reflexivity. clearbody r.
    assert ((r <? 128) = false) as -> by lia. assert ((r <? 2048) = false) as -> by lia. assert ((r <? 65536) = false) as -> by lia.
    repeat (apply same_cons; [apply byte_is; lia|]). reflexivity.
  - set (r := (zb a - 240) * 262144 + (zb b - 128) * 4096 + (zb c - 128) * 64 + (zb d - 128)).
    assert (R : r = (zb a - 240) * 262144 + (zb b - 128) * 4096 + (zb c - 128) * 64 + (zb d - 128)) by reflexivity. clearbody r.
    assert ((r <? 128) = false) as -> by lia. assert ((r <? 2048) = false) as -> by lia. assert ((r <? 65536) = false) as -> by lia.
    repeat (apply same_cons; [apply byte_is; lia|]). reflexivity.
  - set (r := (zb a - 240) * 262144 + (zb b - 128) * 4096 + (zb c - 128) * 64 + (zb d - 128)).
    assert (R : r = (zb a - 240) * 262144 + (zb b - 128) * 4096 + (zb c - 128) * 64 + (zb d - 128)) by reflexivity. clearbody r.
    assert ((r <? 128) = false) as -> by lia. assert ((r <? 2048) = false) as -> by lia. assert ((r <? 65536) = false) as -> by lia.
    repeat (apply same_cons; [apply byte_is; lia|]). reflexivity.
Qed.
Lemma scan_hex a b c d u : is_hex a = true -> is_hex b = true -> is_hex c = true -> is_hex d = true ->
  scan_string (x5c :: x75 :: a :: b :: c :: d :: u) = option_map (fun '(raw, rest) => ([x5c; x75; a; b; c; d] ++ raw, rest)) (scan_string u).
Proof. intros A B C D. cbn [scan_string]. rewrite A, B, C, D. reflexivity. Qed.
(** A UTF-8 character standing for itself. *)
Lemma shows_itself cs : utf8_char cs -> (forall c, In c cs -> 32 <= zb c /\ c <> x22 /\ c <> x5c) -> shows cs cs.
Proof.
  intros U P. assert (K : (exists a, cs = [a]) \/ (exists a t, cs = a :: t /\ (128 <=? zb a) = true)).
  { destruct U; [left; eauto|right..]; unfold bytes_in in *; do 2 eexists; (split; [reflexivity|lia]). }
  destruct K as [(a & ->)|(a & t & -> & H)].
  - destruct (P a (or_introl eq_refl)) as (L & Q & S). assert (A : zb a < 128) by (inversion U; subst; unfold bytes_in in *; lia).
    assert (Q' : Byte.eqb a x22 = false) by (destruct (Byte.eqb a x22) eqn:E; [apply Byte.byte_dec_bl in E; contradiction|reflexivity]).
    assert (S' : is_backslash a = false) by (unfold is_backslash; destruct (Byte.eqb a x5c) eqn:E; [apply Byte.byte_dec_bl in E; contradiction|reflexivity]).
    split; intros u; cbn [app].
    + cbn [get_chars]. rewrite S', Q'. assert ((zb a <? 32) = false) as -> by lia. assert ((zb a <? 128) = true) as -> by lia. now destruct (get_chars 0 u).
    + cbn [scan_string]. rewrite S', Q'. assert ((zb a <? 32) = false) as -> by lia. reflexivity.
  - clear P. split.
    + intros u. inversion U as [a' A|a' b A B|a' b c A B C|a' b c A B C|a' b c A B C|a' b c A B C|a' b c d A B C D|a' b c d A B C D|a' b c d A B C D]; subst; unfold bytes_in in *; cbn [app].
      * lia.
      * rewrite (get_high a _ 1); [now rewrite get_more, map_app2|exact H|]. apply width_2; [unfold inr; lia|unfold cont, inr; lia].
      * rewrite (get_high a _ 2); [now rewrite !get_more, map_app3|exact H|]. apply width_3; [unfold inr; lia| |unfold cont, inr; lia].
        replace (zb a =? 224) with true by lia. replace (zb a =? 237) with false by lia. unfold inr. lia.
      * rewrite (get_high a _ 2); [now rewrite !get_more, map_app3|exact H|]. apply width_3; [unfold inr; lia| |unfold cont, inr; lia].
        replace (zb a =? 224) with false by lia. replace (zb a =? 237) with false by lia. unfold inr. lia.
      * rewrite (get_high a _ 2); [now rewrite !get_more, map_app3|exact H|]. apply width_3; [unfold inr; lia| |unfold cont, inr; lia].
        replace (zb a =? 224) with false by lia. replace (zb a =? 237) with true by lia. unfold inr. lia.
      * rewrite (get_high a _ 2); [now rewrite !get_more, map_app3|exact H|]. apply width_3; [unfold inr; lia| |unfold cont, inr; lia].
        replace (zb a =? 224) with false by lia. replace (zb a =? 237) with false by lia. unfold inr. lia.
      * rewrite (get_high a _ 3); [now rewrite !get_more, map_app4|exact H|]. apply width_4; [unfold inr; lia| |unfold cont, inr; lia..].
        replace (zb a =? 240) with true by lia. replace (zb a =? 244) with false by lia. unfold inr. lia.
      * rewrite (get_high a _ 3); [now rewrite !get_more, map_app4|exact H|]. apply width_4; [unfold inr; lia| |unfold cont, inr; lia..].
        replace (zb a =? 240) with false by lia. replace (zb a =? 244) with false by lia. unfold inr. lia.
      * rewrite (get_high a _ 3); [now rewrite !get_more, map_app4|exact H|]. apply width_4; [unfold inr; lia| |unfold cont, inr; lia..].
        replace (zb a =? 240) with false by lia. replace (zb a =? 244) with true by lia. unfold inr. lia.
    + apply scan_raw. inversion U; subst; unfold bytes_in in *; repeat constructor; lia.
Qed.
Lemma get_0_hex a b c d t : get_chars 0 (x5c :: x75 :: a :: b :: c :: d :: t) =
  match get_u4 a b c d with
  | None => None
  | Some r =>
      let alone := option_map (app (put_rune (if is_surrogate r then RuneError else r))) (get_chars 0 t) in
      match t with
      | x :: y :: a :: b :: c :: d :: t' =>
          if is_surrogate r && is_backslash x && is_u y then
            match get_u4 a b c d with
            | Some r' =>
                match from_surrogates r r' with
                | Some r => option_map (app (put_rune r)) (get_chars 0 t')
                | None => alone
                end
            | None => alone
            end
          else alone
      | _ => alone
      end
  end.
Proof. reflexivity. Qed.
Lemma get_pair a b c d a' b' c' d' r r' q u : get_u4 a b c d = Some r -> get_u4 a' b' c' d' = Some r' -> from_surrogates r r' = Some q ->
  get_chars 0 (x5c :: x75 :: a :: b :: c :: d :: x5c :: x75 :: a' :: b' :: c' :: d' :: u) = option_map (app (put_rune q)) (get_chars 0 u).
Proof.
  intros G G' F. rewrite get_0_hex, G. cbv zeta.
  assert (is_surrogate r = true) as ->. { unfold from_surrogates in F. unfold is_surrogate. destruct (_ && _) eqn:E in F; [lia|discriminate]. }
  change (is_backslash x5c) with true. change (is_u x75) with true. cbn [andb]. now rewrite G', F.
Qed.
Lemma char_shows raw cs : json_char raw cs -> shows cs raw.
Proof.
  destruct 1 as [cs U P|e c I|a b c d cs U H|a b c d a' b' c' d' r r' cs U H H' R R' Q].
  - now apply shows_itself.
  - assert (K : forall u, get_chars 0 (x5c :: e :: u) = option_map (app [c]) (get_chars 0 u)
       /\ scan_string (x5c :: e :: u) = option_map (fun '(raw, rest) => ([x5c; e] ++ raw, rest)) (scan_string u)).
    { intros u. repeat (destruct I as [[= <- <-]|I]; [split; reflexivity|]). destruct I. }
    split; intros u; cbn [app]; apply K.
  - destruct (hex4_get _ _ _ _ _ H) as (G & A & B & C & D). destruct (code_scalar cs U) as [_ N].
    split; intros u; cbn [app].
    + rewrite (get_hex a b c d (code_point cs)); [now rewrite put_rune_char|exact G|unfold is_surrogate; lia].
    + rewrite scan_hex by assumption. reflexivity.
  - destruct (hex4_get _ _ _ _ _ H) as (G & A & B & C & D). destruct (hex4_get _ _ _ _ _ H') as (G' & A' & B' & C' & D').
    split; intros u; cbn [app].
    + rewrite (get_pair a b c d a' b' c' d' r r' (code_point cs)); [now rewrite put_rune_char|exact G|exact G'|].
      unfold from_surrogates. assert ((55296 <=? r) && (r <=? 56319) && (56320 <=? r') && (r' <=? 57343) = true) as -> by lia. f_equal. lia.
    + rewrite scan_hex, scan_hex by assumption. destruct (scan_string u) as [[? ?]|]; reflexivity.
Qed.
Lemma spells_read raw s : spells raw s -> get_chars 0 raw = Some s /\ raw_ok raw.
Proof.
  intros (rs & cs & F & -> & ->). induction F as [|r c rs cs H _ [IH1 IH2]]; [split; [reflexivity|intros u; reflexivity]|].
  destruct (char_shows r c H) as [G S]. cbn [concat]. split; [rewrite G, IH1; reflexivity|].
  intros u. rewrite <- app_assoc, S, IH2. reflexivity.
Qed.
(** What Marshal prints. *)
Lemma ascii_spelt sh a : bytes_in 0 127 a -> json_char (put_ascii sh a) [a].
Proof.
  intros H. pose proof (u_1 a H) as U. assert (L : (zb a <? 128) = true) by (destruct H; lia). clear H.
  destruct (quietb a) eqn:E.
  - apply quiet_b in E. destruct (quiet_self sh a E) as [-> _]. destruct E as [R N]. apply spelt_itself; [exact U|].
    intros c [<-|[]]. split; [lia|]. split; intros ->; apply N; cbn; auto.
  - destruct a; try discriminate L; try discriminate E; destruct sh;
      lazymatch goal with |- json_char ?p _ => let q := eval vm_compute in p in change p with q end;
      lazymatch goal with
      | |- json_char [x5c; x75; _; _; _; _] _ => apply spelt_hex; [exact U|]; do 4 eexists; repeat split
      | |- json_char [x5c; _] _ => apply spelt_short; cbn; auto 10
      | |- _ => apply spelt_itself; [exact U|]; intros c [<-|[]]; repeat split; discriminate
      end.
Qed.
Lemma char_spelt sh cs : utf8_char cs -> exists p, json_char p cs /\ forall t, put_chars sh 0 (cs ++ t) = p ++ put_chars sh 0 t.
Proof.
  intros U. assert (K : (exists a, cs = [a] /\ bytes_in 0 127 a) \/ Forall (fun c => 128 <= zb c) cs).
  { destruct U; [left; eauto|right..]; unfold bytes_in in *; repeat constructor; lia. }
  destruct K as [(a & -> & A)|K].
  - exists (put_ascii sh a). split; [now apply ascii_spelt|]. intros t. cbn [app]. rewrite put_0.
    assert ((zb a <? 128) = true) as -> by (destruct A; lia). reflexivity.
  - destruct (bytes_eqb cs [xe2; x80; xa8]) eqn:E1.
    { apply bytes_eqb_eq in E1. subst cs. exists (str "\u2028"). split; [apply spelt_hex; [exact U|]; do 4 eexists; repeat split|].
      intros t. reflexivity. }
    destruct (bytes_eqb cs [xe2; x80; xa9]) eqn:E2.
    { apply bytes_eqb_eq in E2. subst cs. exists (str "\u2029"). split; [apply spelt_hex; [exact U|]; do 4 eexists; repeat split|].
      intros t. reflexivity. }
    exists cs. split.
    + apply spelt_itself; [exact U|]. intros c I. rewrite Forall_forall in K. specialize (K c I). split; [lia|]. split; intros ->; cbn in K; lia.
    + destruct (char_ok sh cs U) as (p & [G S] & P). intros t. rewrite P. f_equal.
      specialize (P []). change (put_chars sh 0 []) with (@nil byte) in P. rewrite !app_nil_r in P. rewrite <- P. clear P G S p t.
      destruct U as [a A|a b A B|a b c A B C|a b c A B C|a b c A B C|a b c A B C|a b c d A B C D|a b c d A B C D|a b c d A B C D];
        unfold bytes_in in *; rewrite put_0; (assert ((zb a <? 128) = false) as -> by (apply Forall_inv in K; lia)).
      * apply Forall_inv in K. lia.
      * rewrite width_2, !firstn_other; [reflexivity|lia|lia|unfold inr; lia|unfold cont, inr; lia].
      * rewrite width_3; [|unfold inr; lia| |unfold cont, inr; lia]; cbn [firstn]; [now rewrite E1, E2|].
        replace (zb a =? 224) with true by lia. replace (zb a =? 237) with false by lia. unfold inr. lia.
      * rewrite width_3; [|unfold inr; lia| |unfold cont, inr; lia]; cbn [firstn]; [now rewrite E1, E2|].
        replace (zb a =? 224) with false by lia. replace (zb a =? 237) with false by lia. unfold inr. lia.
      * rewrite width_3; [|unfold inr; lia| |unfold cont, inr; lia]; cbn [firstn]; [now rewrite E1, E2|].
        replace (zb a =? 224) with false by lia. replace (zb a =? 237) with true by lia. unfold inr. lia.
      * rewrite width_3; [|unfold inr; lia| |unfold cont, inr; lia]; cbn [firstn]; [now rewrite E1, E2|].
        replace (zb a =? 224) with false by lia. replace (zb a =? 237) with false by lia. unfold inr. lia.
      * rewrite width_4, !firstn_other; [reflexivity|lia|lia|unfold inr; lia| |unfold cont, inr; lia..].
        replace (zb a =? 240) with true by lia. replace (zb a =? 244) with false by lia. unfold inr. lia.
      * rewrite width_4, !firstn_other; [reflexivity|lia|lia|unfold inr; lia| |unfold cont, inr; lia..].
        replace (zb a =? 240) with false by lia. replace (zb a =? 244) with false by lia. unfold inr. lia.
      * rewrite width_4, !firstn_other; [reflexivity|lia|lia|unfold inr; lia| |unfold cont, inr; lia..].
        replace (zb a =? 240) with false by lia. replace (zb a =? 244) with true by lia. unfold inr. lia.
Qed.
Lemma put_spells sh s : utf8 s -> spells (put_chars sh 0 s) s.
Proof.
  intros (chars & F & ->). induction F as [|cs chars H _ (rs & cs' & F2 & E1 & E2)]; [exists [], []; repeat split; constructor|].
  destruct (char_spelt sh cs H) as (p & J & P). exists (p :: rs), (cs :: cs'). cbn [concat]. rewrite P, E1, <- E2. repeat split. now constructor.
Qed.
Lemma full_string sh old s : utf8 s -> full (j_string sh) old s (string_json s).
Proof.
  intros U. split; [eexists; reflexivity|]. intros j ->. destruct (string_ok sh s U) as [A B]. split; [now constructor|]. split.
  - cbn [j_string dec quote]. unfold unquote. now rewrite A.
  - exists (put_chars sh 0 s). split; [now apply put_spells|reflexivity].
Qed.
