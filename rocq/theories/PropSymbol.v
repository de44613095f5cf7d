(** C12-C16: symbols and asset text. *)
From Verif Require Import Base BaseProofs GoStd SpecText GoStdProofs Symbol SpecSymbol SymbolProofs.
From Verif Require Chain.

(** * C12 *)
(** NewSymbol accepts exactly precision <= 18 with a name of at most 7 letters A-Z. *)
Theorem C12_new_symbol : forall precision name v, 0 <= precision < 256 ->
  (NewSymbol precision name = Ok v <->
   precision <= 18 /\ symbol_name name /\ v = precision + 256 * name_code name).
Proof. intros p name v H. apply rawSymbolValue_ok. lia. Qed.
Print Assumptions C12_new_symbol.
(** ... and fails with an error (never a panic) otherwise. *)
Theorem C12_new_symbol_total : forall precision name m,
  NewSymbol precision name <> Panic m.
Proof. intros. apply rawSymbolValue_nopanic. Qed.
Print Assumptions C12_new_symbol_total.
(** The accessors give the parts back. *)
Theorem C12_accessors : forall precision name v, 0 <= precision < 256 ->
  NewSymbol precision name = Ok v ->
  0 <= v < 2 ^ 64 /\ Symbol_Decimals v = precision /\ Symbol_Name v = name
  /\ Symbol_Precision v = 10 ^ precision /\ Symbol_Code v = name_code name.
Proof.
  intros p name v H E. apply C12_new_symbol in E as [L [N ->]]; [|exact H]. fold (symbol_of p name).
  split.
  - destruct N as [NL U]. pose proof (name_code_bound name U).
    assert (256 ^ zlen name <= 256 ^ 7) by (apply Z.pow_le_mono_r; unfold zlen; lia).
    change (256 ^ 7) with 72057594037927936 in *. unfold symbol_of. change (2 ^ 64) with 18446744073709551616. lia.
  - assert (D : Symbol_Decimals (symbol_of p name) = p) by now apply symbol_of_decimals.
    split; [exact D|]. split; [now apply symbol_of_name|].
    split; [rewrite Precision_small; rewrite D; auto|now apply symbol_of_code].
Qed.
Print Assumptions C12_accessors.
(** NewSymbolFromString accepts exactly  <integer>,<name>  with 0 <= integer <= 18. *)
Theorem C12_from_string : forall s v,
  NewSymbolFromString s = Ok v <->
  exists ptext name p, s = ptext ++ str "," ++ name /\ int_text ptext p /\ 0 <= p <= 18
                       /\ symbol_name name /\ v = p + 256 * name_code name.
Proof. exact NewSymbolFromString_ok. Qed.
Print Assumptions C12_from_string.
Theorem C12_from_string_total : forall s m, NewSymbolFromString s <> Panic m.
Proof. exact NewSymbolFromString_nopanic. Qed.
Print Assumptions C12_from_string_total.
(** Text round-trip, through String/NewSymbolFromString and the text interface. *)
Theorem C12_roundtrip : forall precision name v old, 0 <= precision < 256 ->
  NewSymbol precision name = Ok v ->
  NewSymbolFromString (Symbol_String v) = Ok v
  /\ Symbol_UnmarshalText old (Symbol_String v) = Ok (v, None).
Proof.
  intros p name v old H E. apply C12_new_symbol in E as [L [N ->]]; [|exact H].
  pose proof (symbol_roundtrip p name ltac:(lia) N) as R. unfold symbol_of in R.
  split; [exact R|]. unfold Symbol_UnmarshalText. now rewrite R.
Qed.
Print Assumptions C12_roundtrip.
(** A rejected text leaves the target alone. *)
Theorem C12_reject_keeps : forall old s, (forall v, NewSymbolFromString s <> Ok v) ->
  exists e, Symbol_UnmarshalText old s = Ok (old, Some e).
Proof.
  intros old s H. unfold Symbol_UnmarshalText. destruct (NewSymbolFromString s) eqn:E; cbn; eauto.
  - now elim (H a).
  - now apply NewSymbolFromString_nopanic in E.
Qed.
Print Assumptions C12_reject_keeps.
Example C12_example : NewSymbol 4 (str "EOS") = Ok 1397703940
  /\ Symbol_String 1397703940 = str "4,EOS" /\ NewSymbolFromString (str "+004,EOS") = Ok 1397703940
  /\ NewSymbolFromString (str "4,eos") = Err (ErrMsg "invalid character in symbol name").
Proof. vm_compute. auto. Qed.

(** * C13 *)
Theorem C13_parse : forall old text,
  (symbol_name text -> SymbolCode_UnmarshalText old text = Ok (name_code text, None))
  /\ (~ symbol_name text -> exists e, SymbolCode_UnmarshalText old text = Ok (old, Some e)).
Proof.
  intros old text. unfold SymbolCode_UnmarshalText. split; intros N.
  - rewrite (proj2 (symbolcode_ok text (symbol_of 0 text))) by auto. cbn [rbind set_on_success].
    now rewrite symbol_of_code by lia.
  - destruct (NewSymbolFromString _) eqn:E; cbn [rbind set_on_success]; eauto.
    + apply symbolcode_ok in E. tauto.
    + now apply NewSymbolFromString_nopanic in E.
Qed.
Print Assumptions C13_parse.
Theorem C13_roundtrip : forall old text, symbol_name text ->
  SymbolCode_UnmarshalText old text = Ok (name_code text, None)
  /\ SymbolCode_MarshalText (name_code text) = text.
Proof. intros old text N. split; [now apply C13_parse|now apply symbolcode_text]. Qed.
Print Assumptions C13_roundtrip.
Example C13_example : symbol_name (str "EOS") /\ ~ symbol_name (str "EOSEOSEO") /\ name_code (str "EOS") = 5459781.
Proof.
  split; [split; [cbn; lia|repeat constructor; unfold upper; cbn; lia]|]. split; [|reflexivity].
  intros [L _]. cbn in L. lia.
Qed.

(** * C14 *)
Theorem C14_roundtrip : forall value precision name old,
  - 2 ^ 63 < value < 2 ^ 63 -> 0 <= precision <= 18 -> symbol_name name -> name <> [] ->
  let a := {| Chain.Value := value; Chain.Sym := precision + 256 * name_code name |} in
  exists s, Asset_String a = Ok s /\ NewAssetFromString s = Ok a
            /\ Asset_UnmarshalText old s = Ok (a, None) /\ A_ s = Ok a.
Proof.
  intros value p name old Hv Hp N NE a. destruct (asset_roundtrip value p name Hv Hp N NE) as [s [E F]].
  fold a in E, F. exists s. split; [exact E|]. split; [exact F|]. unfold Asset_UnmarshalText, A_. unfold symbol_of in F.
  fold a in F. rewrite F. auto.
Qed.
Print Assumptions C14_roundtrip.
(** The text is the canonical decimal. *)
Theorem C14_text : forall value precision name,
  - 2 ^ 63 < value < 2 ^ 63 -> 0 <= precision <= 18 -> symbol_name name ->
  exists s, Asset_String {| Chain.Value := value; Chain.Sym := precision + 256 * name_code name |} = Ok s
            /\ canonical_asset s value precision name.
Proof. exact Asset_String_canonical. Qed.
Print Assumptions C14_text.
(** The smallest amount is the exception. *)
Theorem C14_minimum : forall precision name, 0 <= precision <= 18 -> symbol_name name ->
  exists t, Asset_String {| Chain.Value := - 2 ^ 63; Chain.Sym := precision + 256 * name_code name |}
              = Ok (str "--" ++ t)
            /\ exists e, NewAssetFromString (str "--" ++ t) = Err e.
Proof. exact asset_min. Qed.
Print Assumptions C14_minimum.
Example C14_example : Asset_String {| Chain.Value := -10042; Chain.Sym := 1397703940 |} = Ok (str "-1.0042 EOS")
  /\ NewAssetFromString (str "-1.0042 EOS") = Ok {| Chain.Value := -10042; Chain.Sym := 1397703940 |}.
Proof. vm_compute. auto. Qed.

(** * C15 *)
Theorem C15_exact : forall s a,
  NewAssetFromString s = Ok a <->
  exists value decimals name,
    asset_text s value decimals name /\ decimals <= 18 /\ name <> [] /\ symbol_name name
    /\ - 2 ^ 63 <= value < 2 ^ 63
    /\ a = {| Chain.Value := value; Chain.Sym := decimals + 256 * name_code name |}.
Proof. exact NewAssetFromString_ok. Qed.
Print Assumptions C15_exact.
Theorem C15_symbol_parts : forall s a, NewAssetFromString s = Ok a ->
  asset_text s (Chain.Value a) (Symbol_Decimals (Chain.Sym a)) (Symbol_Name (Chain.Sym a)).
Proof.
  intros s a H. apply C15_exact in H as (v & d & n & T & L & NE & N & R & ->).
  cbn [Chain.Value Chain.Sym]. fold (symbol_of d n).
  assert (0 <= d) by (destruct T as (? & _ & (? & ? & ? & fp & _ & _ & _ & _ & _ & -> & _)); unfold zlen; lia).
  rewrite symbol_of_decimals, symbol_of_name by (auto; lia). exact T.
Qed.
Print Assumptions C15_symbol_parts.
Theorem C15_total : forall s m, NewAssetFromString s <> Panic m.
Proof. exact NewAssetFromString_nopanic. Qed.
Print Assumptions C15_total.
(** A(s) panics exactly on the texts NewAssetFromString rejects, and otherwise returns its
    result. *)
Theorem C15_literal : forall s,
  (forall a, A_ s = Ok a <-> NewAssetFromString s = Ok a)
  /\ ((exists m, A_ s = Panic m) <-> exists e, NewAssetFromString s = Err e).
Proof.
  intros s. unfold A_. pose proof (C15_total s) as T. destruct (NewAssetFromString s) as [a|e|m].
  - split; [tauto|]. split; [intros [m H]; discriminate|intros [e H]; discriminate].
  - split; [split; discriminate|]. split; intros _; eauto.
  - now elim (T m).
Qed.
Print Assumptions C15_literal.
Example C15_example : asset_text (str "-.5 EOS") (-5) 1 (str "EOS")
  /\ NewAssetFromString (str "-.5 EOS") = Ok {| Chain.Value := -5; Chain.Sym := 1397703937 |}
  /\ NewAssetFromString (str "1.2.3 EOS") = Err ErrInvalidAssetString.
Proof.
  split; [|vm_compute; auto]. exists (str "-.5"). split; [reflexivity|].
  exists true, true, [], (str "5"). repeat split; try constructor; try discriminate; try constructor; unfold digit; cbn; lia.
Qed.

(** * C16 *)
Theorem C16_panics_iff : forall a, (exists m, Asset_String a = Panic m) <-> 64 <= Symbol_Decimals (Chain.Sym a).
Proof. exact asset_string_panics. Qed.
Print Assumptions C16_panics_iff.
Theorem C16_safe : forall a, Symbol_Decimals (Chain.Sym a) <= 18 ->
  Symbol_Precision (Chain.Sym a) = 10 ^ Symbol_Decimals (Chain.Sym a) /\ exists s, Asset_String a = Ok s.
Proof.
  intros a H. split; [now apply Precision_small|]. destruct (Asset_String a) eqn:E; eauto.
  - now apply asset_string_noerr in E.
  - assert (64 <= Symbol_Decimals (Chain.Sym a)) by (apply asset_string_panics; eauto). lia.
Qed.
Print Assumptions C16_safe.
(** Decimals is the low byte of the symbol. *)
Theorem C16_decimals : forall s, Symbol_Decimals s = s mod 256.
Proof. intros s. apply (Z.land_ones s 8). lia. Qed.
Print Assumptions C16_decimals.
Example C16_example : Asset_String {| Chain.Value := 1; Chain.Sym := 64 |} = Panic "integer divide by zero".
Proof. reflexivity. Qed.

(** * C65: FloatValue *)
(** What is known of strconv.ParseFloat: it reads a decimal as the floating-point
    number [nearest n m] nearest to n / m (for negative n, with a sign), and rejects two
    signs. *)
Definition reads_decimals {F} (ParseFloat : list byte -> res F) (nearest : Z -> Z -> F) : Prop :=
  (forall n decimals ip fp, ip <> [] -> digits ip -> digits fp -> zlen fp = decimals -> dec_val (ip ++ fp) = Z.abs n ->
     ParseFloat ((if n <? 0 then [x2d] else []) ++ ip ++ (if 0 <? decimals then x2e :: fp else [])) = Ok (nearest n (10 ^ decimals)))
  /\ (forall t, exists e, ParseFloat (str "--" ++ t) = Err e).
Lemma Split_head a b sep : ~ In sep a -> nth 0 (Split (a ++ sep :: b) sep) [] = a.
Proof.
  induction a as [|c a IH]; intros H; cbn [app Split].
  - now rewrite (Byte.byte_dec_lb eq_refl).
  - destruct (Byte.eqb c sep) eqn:E; [apply Byte.byte_dec_bl in E; subst; elim H; now left|].
    rewrite <- IH at 2 by (intros X; apply H; now right). destruct (Split (a ++ sep :: b) sep) eqn:S; [now apply Split_ne in S|reflexivity].
Qed.
Lemma no_space s : digits s -> ~ In x20 s.
Proof. intros D I. apply (proj1 (Forall_forall _ _) D) in I. unfold digit in I. cbn in I. lia. Qed.
Theorem C65_nearest : forall F (ParseFloat : list byte -> res F) nearest, reads_decimals ParseFloat nearest ->
  forall a, - 2 ^ 63 < Chain.Value a < 2 ^ 63 -> Symbol_Decimals (Chain.Sym a) <= 18 ->
  Asset_FloatValue ParseFloat a = Ok (nearest (Chain.Value a) (10 ^ Symbol_Decimals (Chain.Sym a))).
Proof.
  intros F P near [R _] [v sym] V D. cbn [Chain.Value Chain.Sym] in *.
  destruct (Asset_String_any v sym V D) as (s & E & ip & fp & -> & Df & L & (NE & Di & Vi & _) & Vf).
  unfold Asset_FloatValue. rewrite E. cbn [rbind].
  set (d := Symbol_Decimals sym) in *. assert (Hd : 0 <= d) by (rewrite <- L; apply zlen_nonneg).
  assert (0 < 10 ^ d) by (apply Z.pow_pos_nonneg; lia).
  rewrite (app_assoc ip), (app_assoc (if v <? 0 then _ else _)), Split_head.
  - rewrite (R v d ip fp NE Di Df L); [reflexivity|]. rewrite dec_val_app, L, Vi, Vf.
    pose proof (Z.div_mod (Z.abs v) (10 ^ d) ltac:(lia)). lia.
  - rewrite !in_app_iff. intros [H'|[H'|H']].
    + destruct (v <? 0); cbn in H'; [|tauto]. destruct H' as [H'|[]]. discriminate H'.
    + now apply (no_space ip).
    + destruct (0 <? d); [|destruct H']. destruct H' as [H'|H']; [discriminate H'|]. now apply (no_space fp).
Qed.
Print Assumptions C65_nearest.
(** It panics for the smallest amount and for 64 decimals or more. *)
Theorem C65_panics : forall F (ParseFloat : list byte -> res F) nearest, reads_decimals ParseFloat nearest ->
  forall a, (Chain.Value a = - 2 ^ 63 /\ Symbol_Decimals (Chain.Sym a) <= 18) \/ 64 <= Symbol_Decimals (Chain.Sym a) ->
  exists m, Asset_FloatValue ParseFloat a = Panic m.
Proof.
  intros F P near [_ R] [v sym] [[V D]|D]; cbn [Chain.Value Chain.Sym] in *; unfold Asset_FloatValue.
  - rewrite V. destruct (asset_min_any sym D) as [t ->]. cbn [rbind Split].
    change (Byte.eqb x2d x20) with false. cbv iota. destruct (Split t x20) as [|u us] eqn:S; [now apply Split_ne in S|].
    cbn [nth]. destruct (R u) as [e E]. cbn [str] in E. change (str "--" ++ u) with (x2d :: x2d :: u) in E. rewrite E. eauto.
  - apply (proj2 (asset_string_panics {| Chain.Value := v; Chain.Sym := sym |})) in D as [m ->]. cbn [rbind]. eauto.
Qed.
Print Assumptions C65_panics.
(** Exact fractions in place of floating-point numbers. *)
Definition fraction (s : list byte) : Z * Z :=
  match Split s x2e with [ip] => (dec_val ip, 1) | [ip; fp] => (dec_val (ip ++ fp), 10 ^ zlen fp) | _ => (0, 0) end.
Definition ParseFraction (s : list byte) : res (Z * Z) :=
  match s with
  | x2d :: x2d :: _ => Err (ErrMsg "invalid syntax")
  | x2d :: s => let (n, m) := fraction s in Ok (- n, m)
  | _ => Ok (fraction s)
  end.
Example C65_ex : reads_decimals ParseFraction (fun n m => (n, m))
  /\ Asset_FloatValue ParseFraction {| Chain.Value := -10042; Chain.Sym := 1397703940 |} = Ok (-10042, 10000).
Proof.
  split; [|vm_compute; reflexivity]. split; [|intros t; eexists; reflexivity].
  intros n d ip fp NE Di Df L V.
  assert (H : fraction (ip ++ (if 0 <? d then x2e :: fp else [])) = (Z.abs n, 10 ^ d)).
  { assert (P : forall s, digits s -> ~ In x2e s).
    { intros s D I. apply (proj1 (Forall_forall _ _) D) in I. unfold digit in I. cbn in I. lia. }
    unfold fraction. destruct (Z.ltb_spec 0 d).
    - rewrite (proj2 (Split_two _ x2e ip fp)) by auto. now rewrite V, L.
    - destruct fp; [|rewrite zlen_cons in L; pose proof (zlen_nonneg fp); lia]. rewrite app_nil_r in *.
      rewrite (proj2 (Split_one _ x2e ip)) by auto. rewrite V, <- L. reflexivity. }
  destruct ip as [|c ip]; [congruence|]. inversion Di as [|? ? Hc _]; subst. unfold digit in Hc.
  assert (C : c <> x2d) by (intros ->; cbn in Hc; lia).
  destruct (Z.ltb_spec n 0); cbn [app] in *.
  - unfold ParseFraction. destruct c; try congruence; rewrite H; f_equal; f_equal; lia.
  - unfold ParseFraction. destruct c; try congruence; rewrite H; f_equal; f_equal; lia.
Qed.
