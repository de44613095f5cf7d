(** What json.Unmarshal stores has the range of its type, and strings are UTF-8: proofs. *)
From Verif Require Import Base GoStd BaseProofs GoStdProofs SpecText SpecName SpecHex SpecTime SpecSymbol SpecNumbers Chain AbiDyn SpecChain SpecJson.
From Verif Require Import Name Symbol Hex Numbers Time NameProofs SymbolProofs Json JsonProofs JsonCodecs JsonStrings.
From Verif Require Import PropName PropHex PropTime PropNumbers PropSymbol.

(** ** Strings *)
Lemma utf8_nil : utf8 [].
Proof. exists []. split; [constructor|reflexivity]. Qed.
Lemma utf8_char_app c s : utf8_char c -> utf8 s -> utf8 (c ++ s).
Proof. intros C (cs & F & ->). exists (c :: cs). split; [now constructor|reflexivity]. Qed.
Lemma range_in lo hi b : inr lo hi b = true -> bytes_in lo hi b.
Proof. unfold inr, bytes_in. lia. Qed.
Lemma range_cont b : cont b = true -> bytes_in 128 191 b.
Proof. unfold cont, bytes_in. lia. Qed.
Lemma put_rune_utf8 r : utf8_char (put_rune r).
Proof.
  unfold put_rune. destruct (_ || _) eqn:B.
  { apply u_3c; unfold bytes_in; vm_compute; split; discriminate. }
  apply Bool.orb_false_iff in B as [B1 B2]. apply Bool.orb_false_iff in B1 as [B0 B1].
  assert (Z : forall z, 0 <= z < 256 -> zb (bz z) = z) by (intros z Hz; rewrite zb_bz; apply Z.mod_small; lia).
  destruct (Z.ltb_spec r 128).
  { apply u_1. unfold bytes_in. rewrite Z; lia. }
  destruct (Z.ltb_spec r 2048).
  { apply u_2; unfold bytes_in; rewrite Z; lia. }
  destruct (Z.ltb_spec r 65536).
  - destruct (Z.lt_ge_cases r 4096); [apply u_3; unfold bytes_in; rewrite Z; lia|].
    destruct (Z.lt_ge_cases r 53248); [apply u_3a; unfold bytes_in; rewrite Z; lia|].
    destruct (Z.lt_ge_cases r 57344); [apply u_3b; unfold bytes_in; rewrite Z; lia|].
    apply u_3c; unfold bytes_in; rewrite Z; lia.
  - destruct (Z.lt_ge_cases r 262144); [apply u_4; unfold bytes_in; rewrite Z; lia|].
    destruct (Z.lt_ge_cases r 1048576); [apply u_4a; unfold bytes_in; rewrite Z; lia|].
    apply u_4b; unfold bytes_in; rewrite Z; lia.
Qed.
Lemma width_char c t k : (zb c <? 128) = false -> char_width (c :: t) = S k ->
  exists cs rest, t = cs ++ rest /\ length cs = k /\ utf8_char (c :: cs).
Proof.
  intros H W. cbn [char_width] in W. rewrite H in W.
  destruct (inr 194 223 c) eqn:R2.
  { destruct t as [|b t]; [discriminate|]. destruct (cont b) eqn:B; [|discriminate]. injection W as <-.
    exists [b], t. split; [reflexivity|]. split; [reflexivity|]. apply u_2; [now apply range_in|now apply range_cont]. }
  destruct (inr 224 239 c) eqn:R3.
  { destruct t as [|b [|d t]]; try discriminate.
    destruct (inr (if zb c =? 224 then 160 else 128) (if zb c =? 237 then 159 else 191) b) eqn:B; [|discriminate].
    destruct (cont d) eqn:D; [|discriminate]. injection W as <-. exists [b; d], t. split; [reflexivity|]. split; [reflexivity|].
    apply range_in in R3, B. apply range_cont in D. unfold bytes_in in R3.
    destruct (Z.eqb_spec (zb c) 224) as [Q|Q]; destruct (Z.eqb_spec (zb c) 237) as [Q'|Q']; try lia.
    - apply u_3; auto. unfold bytes_in. lia.
    - apply u_3b; auto. unfold bytes_in. lia.
    - destruct (Z.lt_ge_cases (zb c) 237); [apply u_3a|apply u_3c]; auto; unfold bytes_in; lia. }
  destruct (inr 240 244 c) eqn:R4; [|discriminate].
  destruct t as [|b [|d [|f t]]]; try discriminate.
  destruct (inr (if zb c =? 240 then 144 else 128) (if zb c =? 244 then 143 else 191) b) eqn:B; [|discriminate].
  destruct (cont d) eqn:D; [|discriminate]. destruct (cont f) eqn:F; [|discriminate]. injection W as <-.
  exists [b; d; f], t. split; [reflexivity|]. split; [reflexivity|].
  apply range_in in R4, B. apply range_cont in D, F. unfold bytes_in in R4.
  destruct (Z.eqb_spec (zb c) 240) as [Q|Q]; destruct (Z.eqb_spec (zb c) 244) as [Q'|Q']; try lia.
  - apply u_4; auto. unfold bytes_in. lia.
  - apply u_4b; auto. unfold bytes_in. lia.
  - apply u_4a; auto. unfold bytes_in. lia.
Qed.
Lemma get_copied cs : forall rest, get_chars (length cs) (cs ++ rest) = option_map (app cs) (get_chars 0 rest).
Proof.
  induction cs as [|c cs IH]; intros rest; [cbn [length app]; now destruct (get_chars 0 rest)|].
  cbn [length app]. rewrite get_more, IH. now destruct (get_chars 0 rest).
Qed.
Lemma get_escape_ascii e c : get_escape e = Some c -> bytes_in 0 127 c.
Proof. destruct e; cbn [get_escape]; intros [= <-]; vm_compute; split; discriminate. Qed.
Lemma get_utf8 : forall n s out, (length s <= n)%nat -> get_chars 0 s = Some out -> utf8 out.
Proof.
  induction n as [|n IH]; intros s out L G.
  { destruct s; [|cbn in L; lia]. injection G as <-. exact utf8_nil. }
  assert (RUN : forall r t out, (length t <= n)%nat -> option_map (app (put_rune r)) (get_chars 0 t) = Some out -> utf8 out).
  { intros r t o Lt Gt. destruct (get_chars 0 t) as [q|] eqn:Q; [|discriminate]. injection Gt as <-.
    apply utf8_char_app; [apply put_rune_utf8|]. eapply IH; eauto. }
  assert (ONE : forall c t out, bytes_in 0 127 c -> (length t <= n)%nat -> option_map (cons c) (get_chars 0 t) = Some out -> utf8 out).
  { intros c t o C Lt Gt. destruct (get_chars 0 t) as [q|] eqn:Q; [|discriminate]. injection Gt as <-.
    apply (utf8_char_app [c]); [now apply u_1|]. eapply IH; eauto. }
  destruct s as [|c t]; [injection G as <-; exact utf8_nil|]. cbn [length] in L.
  destruct (is_backslash c) eqn:BS.
  - cbn [get_chars] in G. rewrite BS in G. destruct t as [|e t]; [discriminate|]. cbn [length] in L.
    destruct (is_u e) eqn:U.
    + destruct t as [|a [|b [|c' [|d t]]]]; try discriminate. cbn [length] in L.
      destruct (get_u4 a b c' d) as [r|]; [|discriminate]. cbv zeta in G.
      assert (AL : option_map (app (put_rune (if is_surrogate r then RuneError else r))) (get_chars 0 t) = Some out -> utf8 out)
        by (apply RUN; lia).
      destruct t as [|x [|y [|a2 [|b2 [|c2 [|d2 t2]]]]]]; [exact (AL G)..|].
      destruct (is_surrogate r && is_backslash x && is_u y); [|exact (AL G)].
      destruct (get_u4 a2 b2 c2 d2) as [r'|]; [|exact (AL G)].
      destruct (from_surrogates r r') as [q|]; [|exact (AL G)].
      apply (RUN q t2); [cbn [length] in L; lia|exact G].
    + destruct (get_escape e) as [q|] eqn:E; [|discriminate]. apply (ONE q t); [now apply (get_escape_ascii e)|lia|exact G].
  - cbn [get_chars] in G. rewrite BS in G. destruct (Byte.eqb c x22 || (zb c <? 32)); [discriminate|].
    destruct (zb c <? 128) eqn:A.
    { apply (ONE c t); [|lia|exact G]. pose proof (zb_range c). unfold bytes_in. lia. }
    destruct (char_width (c :: t)) as [|k] eqn:W.
    { apply (RUN RuneError t); [lia|exact G]. }
    destruct (width_char c t k A W) as (cs & rest & -> & <- & C). rewrite get_copied in G.
    destruct (get_chars 0 rest) as [q|] eqn:Q; [|discriminate]. injection G as <-.
    change (c :: cs ++ q) with ((c :: cs) ++ q). apply utf8_char_app; [exact C|]. eapply IH; [|exact Q].
    rewrite app_length in L. lia.
Qed.

(** ** Codecs *)
Definition keeps {T} (P : T -> Prop) (c : codec T) : Prop := forall old j v, P old -> dec c old j = Ok v -> P v.
Lemma keeps_string sh : keeps utf8 (j_string sh).
Proof.
  intros old j v O H. destruct j; try discriminate H.
  - injection H as <-. exact O.
  - cbn [j_string dec] in H. unfold unquote in H. destruct (get_chars 0 raw) as [s|] eqn:G; [|discriminate]. injection H as <-.
    eapply get_utf8; [|exact G]. reflexivity.
Qed.
Lemma keeps_uint bits : keeps (in_u bits) (j_uint bits).
Proof.
  intros old j v O H. destruct j; try discriminate H.
  - injection H as <-. exact O.
  - cbn [j_uint dec] in H. destruct (ParseUint lit 64) as [w [e|]] eqn:Q; [discriminate|].
    destruct (Z.ltb_spec w (2 ^ bits)); [|discriminate]. injection H as <-. apply ParseUint_ok in Q as (_ & D & -> & _); [|lia].
    pose proof (dec_val_bound lit D). unfold in_u. lia.
Qed.
Lemma keeps_text {T} (P : T -> Prop) sh marshal unmarshal nil :
  (forall old s v, P old -> unmarshal old s = Ok (v, None) -> P v) -> (forall old, P old -> P (nil old)) ->
  keeps P (@j_text T sh marshal unmarshal nil).
Proof.
  intros U N old j v O H. destruct j; try discriminate H.
  - injection H as <-. now apply N.
  - cbn [j_text dec dec_text] in H. unfold unquote in H. destruct (get_chars 0 raw) as [s|]; [|discriminate]. cbn [rbind] in H.
    destruct (unmarshal old s) as [[w [e|]]| |] eqn:Q; try discriminate. injection H as <-. eapply U; eauto.
Qed.
Lemma keeps_name e : keeps (in_u 64) (j_Name e).
Proof. apply keeps_text; [|auto]. intros old s v _ H. unfold total, Name_UnmarshalText in H.
  assert (E : v = NewName s) by congruence. rewrite E. exact (proj1 (C10_always_canonical s)). Qed.
Lemma keeps_second e : keeps (in_u 32) (j_TimePointSec e).
Proof.
  apply keeps_text; [|auto]. intros old s v _ H. pose proof (C21_unmarshal old s) as U.
  destruct (NewTimePointSecFromString s) as [w|er|m] eqn:Q; try contradiction; [|congruence]. assert (E : v = w) by congruence. rewrite E.
  apply C21_accepts in Q as (_ & _ & t & _ & _ & _ & ->). unfold in_u. lia.
Qed.
Lemma keeps_uint64 : keeps (in_u 64) j_Uint64.
Proof.
  intros old j v O H. cbn [j_Uint64 j_raw dec] in H. destruct (Uint64_UnmarshalJSON old (literal j)) as [w [e|]] eqn:Q; [discriminate|].
  injection H as <-. apply C19_accepts in Q as (ds & _ & _ & D & -> & L). pose proof (dec_val_bound ds D). unfold in_u. lia.
Qed.
Lemma keeps_any {T} (c : codec T) : keeps (fun _ => True) c.
Proof. now intros old j v _ _. Qed.
Lemma keeps_slice {T} (P : T -> Prop) zero c : P zero -> keeps P c -> keeps (Forall P) (j_slice zero c).
Proof.
  intros Z K old j v O H. destruct j; try discriminate H; [injection H as <-; constructor|].
  cbn [j_slice dec] in H. revert old v O H. induction l as [|j l IH]; intros old v O H; cbn [dec_elements] in H.
  - injection H as <-. constructor.
  - destruct (dec c (hd zero old) j) as [x| |] eqn:D; try discriminate. cbn [rbind] in H.
    destruct (dec_elements (dec c) zero (tl old) l) as [xs| |] eqn:Ds; try discriminate. injection H as <-. constructor.
    + eapply K; [|exact D]. destruct O; [exact Z|assumption].
    + eapply IH; [|exact Ds]. destruct O; [constructor|assumption].
Qed.
Lemma keeps_ptr {T} (P : T -> Prop) zero c : P zero -> keeps P c -> keeps (fun o => forall y, o = Some y -> P y) (j_ptr zero c).
Proof.
  intros Z K old j v O H. cbn [j_ptr dec] in H.
  assert (G : rbind (dec c (match old with Some v => v | None => zero end) j) (fun v => Ok (Some v)) = Ok v -> forall y, v = Some y -> P y).
  { intros R y ->. destruct (dec c _ j) as [x| |] eqn:D; try discriminate. cbn in R. injection R as <-. eapply K; [|exact D].
    destruct old; [now apply O|exact Z]. }
  destruct j; try (now apply G). injection H as <-. discriminate.
Qed.
Definition field_keeps {T} (P : T -> Prop) (f : jfield T) : Prop := forall v j w, P v -> f_dec f v j = Ok w -> P w.
Lemma keeps_struct {T} (P : T -> Prop) fold fs : Forall (field_keeps P) fs -> keeps P (@j_struct T fold fs).
Proof.
  intros F old j v O H. destruct j; try discriminate H; [injection H as <-; exact O|].
  cbn [j_struct dec] in H. revert old O H. induction l as [|[k j] l IH]; intros old O H; cbn [dec_members] in H.
  - injection H as <-. exact O.
  - unfold unquote in H. destruct (get_chars 0 k) as [key|]; [|discriminate]. cbn [rbind] in H.
    destruct (find_field fold fs key) as [f|] eqn:Ff; [|now apply (IH old)].
    assert (In f fs).
    { unfold find_field in Ff. destruct (find (fun f => bytes_eqb (f_name f) key) fs) as [g|] eqn:G.
      - injection Ff as ->. now apply find_some in G.
      - now apply find_some in Ff. }
    destruct (f_dec f old j) as [w| |] eqn:D; try discriminate. cbn [rbind] in H. apply (IH w); [|exact H].
    rewrite Forall_forall in F. eapply F; eauto.
Qed.
Lemma keeps_fld {T A} (P : T -> Prop) (Q : A -> Prop) name c get set : keeps Q c ->
  (forall v, P v -> Q (get v)) -> (forall v x, P v -> Q x -> P (set v x)) -> field_keeps P (@fld T A name c get set).
Proof.
  intros K G S v j w Pv H. cbn [fld f_dec] in H. destruct (dec c (get v) j) as [x| |] eqn:D; try discriminate. cbn in H. injection H as <-.
  apply S; [exact Pv|]. eapply K; [|exact D]. now apply G.
Qed.
Lemma keeps_omit {T A} (P : T -> Prop) (Q : list A -> Prop) name c get set : keeps Q c ->
  (forall v, P v -> Q (get v)) -> (forall v x, P v -> Q x -> P (set v x)) -> field_keeps P (@fld_omit T A name c get set).
Proof.
  intros K G S v j w Pv H. cbn [fld_omit f_dec] in H. destruct (dec c (get v) j) as [x| |] eqn:D; try discriminate. cbn in H. injection H as <-.
  apply S; [exact Pv|]. eapply K; [|exact D]. now apply G.
Qed.

(** ** The types of pkg/chain *)
Ltac field Q := eapply (keeps_fld _ Q); [|intros; tauto|intros; cbn; tauto].
Lemma keeps_permission e : keeps wf_permission (j_PermissionLevel e).
Proof.
  apply keeps_struct. repeat apply Forall_cons; [..|constructor]; unfold wf_permission; field (in_u 64); apply keeps_name.
Qed.
Lemma keeps_action e : keeps typed_action (j_Action e).
Proof.
  apply keeps_struct. repeat apply Forall_cons; [..|constructor]; unfold typed_action.
  - field (in_u 64). apply keeps_name.
  - field (in_u 64). apply keeps_name.
  - field (Forall wf_permission). apply keeps_slice; [vm_compute; repeat split; discriminate|apply keeps_permission].
  - field (fun _ : list byte => True). apply keeps_any.
Qed.
Lemma keeps_extension e : keeps (fun x => in_u 16 (EType x)) (j_TransactionExtension e).
Proof.
  apply keeps_struct. repeat apply Forall_cons; [..|constructor].
  - field (in_u 16). apply keeps_uint.
  - field (fun _ : list byte => True). apply keeps_any.
Qed.
Lemma header_fields_keep e : Forall (field_keeps typed_header) (TransactionHeader_fields e).
Proof.
  repeat apply Forall_cons; [..|constructor]; unfold typed_header.
  - field (in_u 32). apply keeps_second.
  - field (in_u 16). apply keeps_uint.
  - field (in_u 32). apply keeps_uint.
  - field (in_u 64). apply keeps_uint.
  - field (in_u 8). apply keeps_uint.
  - field (in_u 64). apply keeps_uint.
Qed.
Lemma keeps_header e : keeps typed_header (j_TransactionHeader e).
Proof. apply keeps_struct, header_fields_keep. Qed.
Lemma zero_action_typed : typed_action zero_action.
Proof. split; [vm_compute; split; congruence|]. split; [vm_compute; split; congruence|constructor]. Qed.
Lemma keeps_transaction e : keeps typed_transaction (j_Transaction e).
Proof.
  apply keeps_struct. unfold Transaction_fields. apply Forall_app. split.
  - apply Forall_map. eapply Forall_impl; [|apply header_fields_keep]. intros f F v j w (V & R) H. cbn [embedded f_dec] in H.
    destruct (f_dec f (Header v) j) as [h| |] eqn:D; try discriminate. injection H as <-. split; [|exact R]. eapply F; eauto.
  - repeat apply Forall_cons; [..|constructor]; unfold typed_transaction.
    + field (Forall typed_action). apply keeps_slice; [exact zero_action_typed|apply keeps_action].
    + field (Forall typed_action). apply keeps_slice; [exact zero_action_typed|apply keeps_action].
    + field (Forall (fun x => in_u 16 (EType x))). apply keeps_slice; [vm_compute; split; congruence|apply keeps_extension].
Qed.
Ltac zeros := repeat split; try exact utf8_nil; try constructor; unfold in_u; cbn; lia.
Lemma keeps_abi e : keeps utf8_abi (j_Abi e).
Proof.
  apply keeps_struct. repeat apply Forall_cons; [..|constructor]; unfold utf8_abi.
  - field utf8. apply keeps_string.
  - field (Forall (fun t => utf8 (NewTypeName t) /\ utf8 (AType t))). apply keeps_slice; [zeros|].
    apply keeps_struct. repeat apply Forall_cons; [..|constructor]; field utf8; apply keeps_string.
  - field (Forall (fun s => utf8 (SName s) /\ utf8 (SBase s) /\ Forall (fun f => utf8 (FName f) /\ utf8 (FType f)) (SFields s))).
    apply keeps_slice; [zeros|]. apply keeps_struct. repeat apply Forall_cons; [..|constructor].
    + field utf8. apply keeps_string.
    + field utf8. apply keeps_string.
    + field (Forall (fun f => utf8 (FName f) /\ utf8 (FType f))). apply keeps_slice; [zeros|].
      apply keeps_struct. repeat apply Forall_cons; [..|constructor]; field utf8; apply keeps_string.
  - field (Forall (fun a => in_u 64 (ActName a) /\ utf8 (ActType a) /\ utf8 (RicardianContract a))). apply keeps_slice; [zeros|].
    apply keeps_struct. repeat apply Forall_cons; [..|constructor]; [field (in_u 64); apply keeps_name|field utf8; apply keeps_string..].
  - field (Forall (fun t => in_u 64 (TName t) /\ utf8 (IndexType t) /\ Forall utf8 (KeyNames t) /\ Forall utf8 (KeyTypes t) /\ utf8 (TType t))).
    apply keeps_slice; [zeros|]. apply keeps_struct. repeat apply Forall_cons; [..|constructor].
    + field (in_u 64). apply keeps_name.
    + field utf8. apply keeps_string.
    + field (Forall utf8). apply keeps_slice; [exact utf8_nil|apply keeps_string].
    + field (Forall utf8). apply keeps_slice; [exact utf8_nil|apply keeps_string].
    + field utf8. apply keeps_string.
  - field (Forall (fun c => utf8 (ClId c) /\ utf8 (ClBody c))). apply keeps_slice; [zeros|].
    apply keeps_struct. repeat apply Forall_cons; [..|constructor]; field utf8; apply keeps_string.
  - eapply (keeps_omit _ (Forall (fun m => in_u 64 (ErrCode m) /\ utf8 (ErrText m)))); [|intros; tauto|intros; cbn; tauto].
    apply keeps_slice; [zeros|]. apply keeps_struct. repeat apply Forall_cons; [..|constructor]; [field (in_u 64); apply keeps_uint64|field utf8; apply keeps_string].
  - eapply (keeps_omit _ (Forall (fun o => forall y, o = Some y -> in_u 16 (XType y)))); [|intros; tauto|intros; cbn; tauto].
    apply keeps_slice; [discriminate|]. apply (keeps_ptr (fun y => in_u 16 (XType y))); [zeros|].
    apply keeps_struct. repeat apply Forall_cons; [..|constructor]; [field (in_u 16); apply keeps_uint|].
    field (fun _ : list byte => True). apply keeps_any.
  - eapply (keeps_omit _ (Forall (fun v => utf8 (VName v) /\ Forall utf8 (VTypes v)))); [|intros; tauto|intros; cbn; tauto].
    apply keeps_slice; [zeros|]. apply keeps_struct. repeat apply Forall_cons; [..|constructor].
    + field utf8. apply keeps_string.
    + field (Forall utf8). apply keeps_slice; [exact utf8_nil|apply keeps_string].
Qed.
