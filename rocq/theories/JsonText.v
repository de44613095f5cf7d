(** Proofs about the JSON forms: the parser accepts the grammar. *)
From Verif Require Import Base GoStd BaseProofs GoStdProofs SpecText SpecHex Json SpecJson SpecJsonText JsonProofs JsonNest.

(** ** White space, strings, numbers *)
Lemma is_space_in c : is_space c = true <-> In c [x20; x09; x0a; x0d].
Proof.
  split; [destruct c; cbn; intros H; try discriminate H; auto 6|]. cbn. intros [<-|[<-|[<-|[<-|[]]]]]; reflexivity.
Qed.
Lemma skip_ws w s : ws w -> skip_space (w ++ s) = skip_space s.
Proof. induction 1 as [|c w H _ IH]; [reflexivity|]. cbn [app skip_space]. apply is_space_in in H. now rewrite H. Qed.
Lemma skip_split s : exists w, ws w /\ s = w ++ skip_space s /\ match skip_space s with [] => True | c :: _ => is_space c = false end.
Proof.
  induction s as [|c s (w & W & E & H)]; [exists []; split; [constructor|split; [reflexivity|exact I]]|]. cbn [skip_space]. destruct (is_space c) eqn:S.
  - exists (c :: w). split; [constructor; [now apply is_space_in|exact W]|]. split; [cbn [app]; now rewrite <- E|exact H].
  - exists []. split; [constructor|]. split; [reflexivity|exact S].
Qed.
Lemma after_inv c s t : after c s = Some t -> exists w, ws w /\ s = w ++ c :: t.
Proof.
  unfold after. destruct (skip_split s) as (w & W & E & _). destruct (skip_space s) as [|x u]; [discriminate|].
  destruct (Byte.eqb x c) eqn:Q; [|discriminate]. intros [= ->]. apply Byte.byte_dec_bl in Q. subst x. now exists w.
Qed.
Lemma after_ws c w t : is_space c = false -> ws w -> after c (w ++ c :: t) = Some t.
Proof. intros S W. unfold after. rewrite skip_ws by exact W. exact (after_hit c t S). Qed.
Lemma after_not c w x t : is_space x = false -> Byte.eqb x c = false -> ws w -> after c (w ++ x :: t) = None.
Proof. intros S E W. unfold after. rewrite skip_ws by exact W. exact (after_miss c x t S E). Qed.

Lemma hex_some c : is_hex c = true <-> hex_val c <> None.
Proof. unfold is_hex. change hex_value with hex_val. destruct (hex_val c); split; congruence. Qed.
Lemma is_escape_in e : is_escape e = true <-> In e [x22; x5c; x2f; x62; x66; x6e; x72; x74].
Proof.
  unfold is_escape. rewrite existsb_exists. split.
  - intros (x & I & E). apply Byte.byte_dec_bl in E. now subst x.
  - intros I. exists e. split; [exact I|now apply Byte.byte_dec_lb].
Qed.
Lemma item_scan i u : string_item i -> scan_string (i ++ u) = option_map (fun '(raw, rest) => (i ++ raw, rest)) (scan_string u).
Proof.
  destruct 1 as [c L Q B|e I|a b c d r (x & y & z & w & A & B & C & D & _)].
  - cbn [app scan_string]. unfold is_backslash. destruct (Byte.eqb c x22) eqn:E1; [apply Byte.byte_dec_bl in E1; contradiction|].
    destruct (Byte.eqb c x5c) eqn:E2; [apply Byte.byte_dec_bl in E2; contradiction|]. replace (zb c <? 32) with false by lia. reflexivity.
  - cbn [app scan_string]. change (Byte.eqb x5c x22) with false. change (is_backslash x5c) with true. cbv iota.
    assert (is_u e = false) as -> by (cbn in I; repeat (destruct I as [<-|I]; [reflexivity|]); destruct I). apply is_escape_in in I. now rewrite I.
  - cbn [app scan_string]. change (Byte.eqb x5c x22) with false. change (is_backslash x5c) with true. change (is_u x75) with true. cbv iota.
    assert (H : forall c v, hex_val c = Some v -> is_hex c = true) by (intros; apply hex_some; congruence).
    rewrite (H _ _ A), (H _ _ B), (H _ _ C), (H _ _ D). reflexivity.
Qed.
Lemma body_scan raw : string_body raw -> raw_ok raw.
Proof.
  intros (items & F & ->). induction F as [|i items H _ IH]; intros u; [reflexivity|]. cbn [concat]. rewrite <- app_assoc, item_scan by exact H. now rewrite IH.
Qed.
Lemma body_cons i raw : string_item i -> string_body raw -> string_body (i ++ raw).
Proof. intros H (items & F & ->). exists (i :: items). split; [now constructor|reflexivity]. Qed.
Lemma scan_body : forall n s raw rest, (length s <= n)%nat -> scan_string s = Some (raw, rest) -> string_body raw /\ s = raw ++ x22 :: rest.
Proof.
  induction n as [|n IH]; intros s raw rest L H; [destruct s; [discriminate H|cbn in L; lia]|].
  destruct s as [|c t]; [discriminate H|]. cbn [scan_string length] in *. destruct (Byte.eqb c x22) eqn:E1.
  { injection H as <- <-. apply Byte.byte_dec_bl in E1. subst c. split; [exists []; split; constructor|reflexivity]. }
  assert (K : forall i t r, (length t <= n)%nat -> r = scan_string t -> option_map (fun '(raw, rest) => (i ++ raw, rest)) r = Some (raw, rest) -> string_item i ->
    string_body raw /\ i ++ t = raw ++ x22 :: rest).
  { intros i t' r L' -> Q I. destruct (scan_string t') as [[raw' rest']|] eqn:S; [|discriminate Q]. cbn [option_map] in Q. injection Q as <- <-.
    destruct (IH _ _ _ L' S) as [B ->]. split; [now apply body_cons|now rewrite app_assoc]. }
  unfold is_backslash in H. destruct (Byte.eqb c x5c) eqn:E2.
  - apply Byte.byte_dec_bl in E2. subst c. destruct t as [|e t]; [discriminate H|]. cbn [length] in L. unfold is_u in H. destruct (Byte.eqb e x75) eqn:E3.
    + apply Byte.byte_dec_bl in E3. subst e. destruct t as [|a [|b [|c [|d t]]]]; try discriminate H. cbn [length] in L.
      destruct (is_hex a && is_hex b && is_hex c && is_hex d) eqn:X; [|discriminate H]. apply andb_prop in X as [X D]. apply andb_prop in X as [X C]. apply andb_prop in X as [A B].
      refine (K [x5c; x75; a; b; c; d] t _ ltac:(lia) eq_refl H _).
      apply hex_some in A, B, C, D. destruct (hex_val a) as [xa|] eqn:Ea; [|congruence]. destruct (hex_val b) as [xb|] eqn:Eb; [|congruence].
      destruct (hex_val c) as [xc|] eqn:Ec; [|congruence]. destruct (hex_val d) as [xd|] eqn:Ed; [|congruence].
      eapply item_hex. exists xa, xb, xc, xd. eauto 10.
    + destruct (is_escape e) eqn:X; [|discriminate H]. apply is_escape_in in X. refine (K [x5c; e] t _ ltac:(lia) eq_refl H _). now constructor.
  - destruct (zb c <? 32) eqn:X; [discriminate H|]. refine (K [c] t _ ltac:(lia) eq_refl H _).
    constructor; [lia|intros ->; discriminate E1|intros ->; discriminate E2].
Qed.

Lemma span_inv p s : forall a b, span p s = (a, b) -> s = a ++ b /\ forallb p a = true /\ match b with [] => True | c :: _ => p c = false end.
Proof.
  induction s as [|c s IH]; intros a b; cbn [span]; [intros [= <- <-]; repeat split|]. destruct (p c) eqn:P.
  - destruct (span p s) as [a' b']. intros [= <- <-]. destruct (IH _ _ eq_refl) as (-> & F & H). cbn [app forallb]. rewrite P, F. auto.
  - intros [= <- <-]. cbn [app forallb]. auto.
Qed.
Lemma digits_all s : digits s <-> forallb is_dec s = true.
Proof.
  unfold digits. rewrite forallb_forall, Forall_forall. split; intros H c I; apply is_dec_digit; auto.
Qed.
Definition no_digit (s : list byte) : Prop := match s with [] => True | c :: _ => is_dec c = false end.
Lemma span_digits_app ds s : digits ds -> no_digit s -> span is_dec (ds ++ s) = (ds, s).
Proof. intros D N. apply span_all; [now apply digits_all|exact N]. Qed.
Lemma number_ok s : json_number s -> is_number s = true.
Proof.
  intros (m & i & f & e & -> & M & [Ni Di] & Z & F & E).
  assert (He : no_digit e /\ match e with [] => True | c :: _ => Byte.eqb c x2e = false end).
  { destruct E as [->|(c & sg & ds & -> & C & _)]; [split; exact I|]. cbn in C. destruct C as [<-|[<-|[]]]; split; reflexivity. }
  assert (Hf : no_digit (f ++ e)) by (destruct F as [->|(ds & -> & _)]; [apply He|reflexivity]).
  assert (Hm : drop_sign [x2d] (m ++ i ++ f ++ e) = i ++ f ++ e).
  { destruct M as [->| ->]; [|reflexivity]. destruct i as [|c i]; [congruence|]. cbn [app drop_sign existsb]. inversion Di as [|? ? D _]; subst.
    destruct (Byte.eqb c x2d) eqn:Q; [|reflexivity]. apply Byte.byte_dec_bl in Q. subst c. unfold digit in D. cbn in D. lia. }
  unfold is_number. rewrite Hm, span_digits_app by assumption. cbv zeta. destruct i as [|d i]; [congruence|].
  assert (G : negb (Byte.eqb d x30) || match i with [] => true | _ :: _ => false end = true).
  { destruct (Byte.eqb d x30) eqn:Q; [|reflexivity]. apply Byte.byte_dec_bl in Q. subst d. now rewrite (Z i eq_refl). }
  rewrite G. cbn [andb].
  assert (K : match e with [] => true | c :: t => (Byte.eqb c x65 || Byte.eqb c x45) && (let (es, t) := span is_dec (drop_sign [x2b; x2d] t) in negb (is_nil es) && is_nil t) end = true).
  { destruct E as [->|(c & sg & ds & -> & C & S & [Nd Dd])]; [reflexivity|].
    assert (drop_sign [x2b; x2d] (sg ++ ds) = ds) as ->.
    { cbn [In] in S. destruct S as [<-|[<-|[<-|[]]]]; [|reflexivity..]. destruct ds as [|x ds]; [congruence|]. cbn [app drop_sign existsb]. inversion Dd as [|? ? D _]; subst.
      unfold digit in D. destruct (Byte.eqb x x2b) eqn:Q; [apply Byte.byte_dec_bl in Q; subst x; cbn in D; lia|].
      destruct (Byte.eqb x x2d) eqn:Q'; [apply Byte.byte_dec_bl in Q'; subst x; cbn in D; lia|]. reflexivity. }
    rewrite <- (app_nil_r ds), span_digits_app by (assumption || exact I). cbn [In] in C. destruct C as [<-|[<-|[]]]; (destruct ds; [congruence|reflexivity]). }
  destruct F as [->|(ds & -> & [Nd Dd])].
  - cbn [app]. destruct e as [|c t]; [reflexivity|]. destruct He as [_ He]. rewrite He. cbn [andb]. exact K.
  - cbn [app]. change (str "." ++ ds) with (x2e :: ds). cbn [app]. change (Byte.eqb x2e x2e) with true. cbv iota. rewrite span_digits_app by (assumption || apply He).
    destruct ds as [|x ds]; [congruence|]. cbn [is_nil negb andb]. exact K.
Qed.
Lemma number_inv s : is_number s = true -> json_number s.
Proof.
  unfold is_number. remember (drop_sign [x2d] s) as u eqn:Eu. assert (M : exists m, s = m ++ u /\ (m = [] \/ m = str "-")).
  { subst u. destruct s as [|c t]; [exists []; auto|]. cbn [drop_sign existsb]. destruct (Byte.eqb c x2d) eqn:Q; [|exists []; auto]. apply Byte.byte_dec_bl in Q. subst c. exists [x2d]. auto. }
  destruct M as (m & Es & M). clear Eu. subst s. destruct (span is_dec u) as [i r] eqn:Ei. apply span_inv in Ei as (-> & Di & _). apply digits_all in Di.
  intros H. apply andb_prop in H as [Hi H].
  assert (Z : some_digits i /\ forall t, i = x30 :: t -> t = []).
  { destruct i as [|d i]; [discriminate Hi|]. split; [split; [discriminate|exact Di]|]. intros t [= -> ->]. cbn in Hi. destruct t; [reflexivity|discriminate Hi]. }
  assert (K : forall e, match e with [] => true | c :: t => (Byte.eqb c x65 || Byte.eqb c x45) && (let (es, t) := span is_dec (drop_sign [x2b; x2d] t) in negb (is_nil es) && is_nil t) end = true ->
    e = [] \/ exists c sign ds, e = c :: sign ++ ds /\ In c [x65; x45] /\ In sign [[]; str "+"; str "-"] /\ some_digits ds).
  { intros [|c t] E; [auto|right]. apply andb_prop in E as [C E]. assert (Sg : exists sg v, t = sg ++ v /\ drop_sign [x2b; x2d] t = v /\ In sg [[]; str "+"; str "-"]).
    { destruct t as [|x t]; [exists [], []; cbn; auto|]. cbn [drop_sign existsb]. destruct (Byte.eqb x x2b) eqn:Q; [apply Byte.byte_dec_bl in Q; subst x; exists [x2b], t; split; [reflexivity|split; [reflexivity|right; left; reflexivity]]|].
      destruct (Byte.eqb x x2d) eqn:Q'; [apply Byte.byte_dec_bl in Q'; subst x; exists [x2d], t; split; [reflexivity|split; [reflexivity|right; right; left; reflexivity]]|]. exists [], (x :: t). split; [reflexivity|split; [reflexivity|left; reflexivity]]. }
    destruct Sg as (sg & v & -> & Ev & Is). rewrite Ev in E. destruct (span is_dec v) as [ds z] eqn:Es. apply span_inv in Es as (-> & Dd & _). apply digits_all in Dd.
    apply andb_prop in E as [N E]. destruct z; [|discriminate E]. rewrite app_nil_r. exists c, sg, ds. split; [reflexivity|]. split.
    - apply orb_prop in C as [C|C]; apply Byte.byte_dec_bl in C; subst c; cbn; auto.
    - split; [exact Is|]. split; [intros ->; discriminate N|exact Dd]. }
  destruct Z as [Z1 Z2].
  destruct r as [|c t].
  - exists m, i, [], []. rewrite !app_nil_r. auto 10.
  - destruct (Byte.eqb c x2e) eqn:Q.
    + apply Byte.byte_dec_bl in Q. subst c. destruct (span is_dec t) as [ds e] eqn:Ef. apply span_inv in Ef as (-> & Dd & _). apply digits_all in Dd.
      apply andb_prop in H as [N H]. exists m, i, (x2e :: ds), e. split; [reflexivity|]. split; [exact M|]. split; [exact Z1|]. split; [exact Z2|].
      split; [right; exists ds; split; [reflexivity|split; [intros ->; discriminate N|exact Dd]]|]. now apply K.
    + exists m, i, [], (c :: t). split; [reflexivity|]. split; [exact M|]. split; [exact Z1|]. split; [exact Z2|]. split; [now left|]. apply K. exact H.
Qed.
Lemma number_chars s : json_number s -> forallb number_char s = true.
Proof.
  assert (D : forall ds, digits ds -> forallb number_char ds = true).
  { intros ds H. apply digits_all in H. rewrite forallb_forall in *. intros c I. unfold number_char. now rewrite (H c I). }
  intros (m & i & f & e & -> & M & [_ Di] & _ & F & E). rewrite !forallb_app, (D i Di).
  assert (forallb number_char m = true) as -> by (destruct M as [->| ->]; reflexivity).
  assert (forallb number_char f = true) as -> by (destruct F as [->|(ds & -> & _ & Dd)]; [reflexivity|rewrite forallb_app, (D ds Dd); reflexivity]).
  destruct E as [->|(c & sg & ds & -> & C & S & _ & Dd)]; [reflexivity|]. cbn [forallb]. rewrite forallb_app, (D ds Dd).
  cbn [In] in C, S. destruct C as [<-|[<-|[]]]; destruct S as [<-|[<-|[<-|[]]]]; reflexivity.
Qed.

(** ** Values *)
Scheme denotes_mut := Minimality for denotes Sort Prop
  with elements_mut := Minimality for elements Sort Prop
  with some_members_mut := Minimality for some_members Sort Prop.
Combined Scheme grammar_ind from denotes_mut, elements_mut, some_members_mut.
Definition head_ok (s : list byte) : Prop := exists c t, s = c :: t /\ is_space c = false /\ Byte.eqb c x5d = false.
Lemma number_head s : json_number s -> exists c t, s = c :: t /\ number_char c = true.
Proof.
  intros H. pose proof (number_chars s H) as C. apply number_ok in H. destruct s as [|c t]; [discriminate H|]. exists c, t. split; [reflexivity|].
  cbn [forallb] in C. now apply andb_prop in C.
Qed.
Lemma denotes_head s j : denotes s j -> head_ok s.
Proof.
  destruct 1 as [| | |s N|raw B|w W|s l E|w W|s l E]; try (do 2 eexists; repeat split; reflexivity).
  destruct (number_head s N) as (c & t & -> & C). exists c, t. destruct (number_char_other c C) as (_ & _ & _ & _ & _ & _ & S & X). auto.
Qed.
Lemma ws_no_number w s : ws w -> no_number s -> no_number (w ++ s).
Proof. intros W N. destruct W as [|c w H _]; [exact N|]. cbn [app no_number]. cbn in H. destruct H as [<-|[<-|[<-|[<-|[]]]]]; reflexivity. Qed.
Lemma app_head {A} (l : list A) c r : (l ++ [c]) ++ r = l ++ c :: r. Proof. now rewrite <- app_assoc. Qed.
Lemma grammar_parses :
  (forall s j, denotes s j -> forall w fuel rest, ws w -> (2 * length s <= fuel)%nat -> no_number rest -> parse_value fuel (w ++ s ++ rest) = Some (j, rest))
  /\ (forall s l, elements s l -> forall fuel rest, (2 * length s + 1 <= fuel)%nat ->
        parse_elements fuel (s ++ x5d :: rest) = Some (l, rest) /\ after x5d (s ++ x5d :: rest) = None)
  /\ (forall s l, some_members s l -> forall fuel rest, (2 * length s + 1 <= fuel)%nat ->
        parse_members fuel (s ++ x7d :: rest) = Some (l, rest) /\ after x7d (s ++ x7d :: rest) = None).
Proof.
  apply grammar_ind.
  - intros w [|fuel] rest W L _; [cbn in L; lia|]. cbn [parse_value]. rewrite skip_ws by exact W. exact (expect_hit (str "null") JNull rest).
  - intros w [|fuel] rest W L _; [cbn in L; lia|]. cbn [parse_value]. rewrite skip_ws by exact W. exact (expect_hit (str "true") (JBool true) rest).
  - intros w [|fuel] rest W L _; [cbn in L; lia|]. cbn [parse_value]. rewrite skip_ws by exact W. exact (expect_hit (str "false") (JBool false) rest).
  - intros s N w fuel rest W L R. pose proof (number_chars s N) as C. pose proof (number_ok s N) as K. destruct s as [|c t]; [discriminate K|].
    destruct fuel as [|fuel]; [cbn [length] in L; lia|]. cbn [parse_value]. rewrite skip_ws by exact W.
    pose proof C as C0. cbn [forallb] in C. apply andb_prop in C as [C _]. destruct (number_char_other c C) as (A1 & A2 & A3 & A4 & A5 & A6 & S & _).
    cbn [app skip_space]. rewrite S, A1, A2, A3, A4, A5, A6. change (c :: t ++ rest) with ((c :: t) ++ rest). rewrite (span_all _ _ _ C0 R). now rewrite K.
  - intros raw B w [|fuel] rest W L _; [cbn [dq str length app] in L; cbn in L; lia|]. cbn [parse_value]. rewrite skip_ws by exact W.
    change (dq raw) with (x22 :: raw ++ [x22]). cbn [app skip_space]. change (is_space x22) with false. change (Byte.eqb x22 x22) with true. cbv iota.
    rewrite app_head, (body_scan raw B). reflexivity.
  - intros w0 W0 w [|fuel] rest W L _; [rewrite !app_length in L; cbn in L; lia|]. cbn [parse_value]. rewrite skip_ws by exact W.
    change (str "[" ++ w0 ++ str "]") with (x5b :: w0 ++ [x5d]). cbn [app skip_space]. change (is_space x5b) with false. change (Byte.eqb x5b x22) with false.
    change (Byte.eqb x5b x7b) with false. change (Byte.eqb x5b x5b) with true. cbv iota. now rewrite app_head, after_ws.
  - intros s l _ IH w [|fuel] rest W L _; [rewrite !app_length in L; cbn in L; lia|]. cbn [parse_value]. rewrite skip_ws by exact W.
    change (str "[" ++ s ++ str "]") with (x5b :: s ++ [x5d]) in *. cbn [app skip_space length] in *. rewrite app_length in L. cbn [length] in L. change (is_space x5b) with false. change (Byte.eqb x5b x22) with false.
    change (Byte.eqb x5b x7b) with false. change (Byte.eqb x5b x5b) with true. cbv iota. rewrite app_head.
    destruct (IH fuel rest ltac:(lia)) as [P A]. now rewrite A, P.
  - intros w0 W0 w [|fuel] rest W L _; [rewrite !app_length in L; cbn in L; lia|]. cbn [parse_value]. rewrite skip_ws by exact W.
    change (str "{" ++ w0 ++ str "}") with (x7b :: w0 ++ [x7d]). cbn [app skip_space]. change (is_space x7b) with false. change (Byte.eqb x7b x22) with false.
    change (Byte.eqb x7b x7b) with true. cbv iota. now rewrite app_head, after_ws.
  - intros s l _ IH w [|fuel] rest W L _; [rewrite !app_length in L; cbn in L; lia|]. cbn [parse_value]. rewrite skip_ws by exact W.
    change (str "{" ++ s ++ str "}") with (x7b :: s ++ [x7d]) in *. cbn [app skip_space length] in *. rewrite app_length in L. cbn [length] in L. change (is_space x7b) with false. change (Byte.eqb x7b x22) with false.
    change (Byte.eqb x7b x7b) with true. cbv iota. rewrite app_head.
    destruct (IH fuel rest ltac:(lia)) as [P A]. now rewrite A, P.
  - intros w s w' j W D IH W' [|fuel] rest L; [lia|]. rewrite !app_length in L. rewrite <- !app_assoc. split.
    + cbn [parse_elements]. rewrite IH; [|exact W|lia|now apply ws_no_number]. rewrite after_not by easy. now rewrite after_ws.
    + destruct (denotes_head s j D) as (c & t & -> & S & N). cbn [app]. now apply after_not.
  - intros w s w' j s' l W D IH W' _ IHl [|fuel] rest L; [lia|]. rewrite !app_length in L. change (length (str ",")) with 1%nat in L. rewrite <- !app_assoc. split.
    + cbn [parse_elements]. rewrite IH; [|exact W|lia|now apply ws_no_number]. change (str "," ++ s' ++ x5d :: rest) with (x2c :: s' ++ x5d :: rest). rewrite after_ws by easy.
      destruct (IHl fuel rest ltac:(lia)) as [P _]. now rewrite P.
    + destruct (denotes_head s j D) as (c & t & -> & S & N). cbn [app]. now apply after_not.
  - intros w k w' w'' s w''' j W K W' W'' D IH W3 [|fuel] rest L; [lia|]. rewrite !app_length in L. rewrite <- !app_assoc. change (dq k) with (x22 :: k ++ [x22]).
    cbn [app]. rewrite app_head. split.
    + cbn [parse_members]. rewrite after_ws by easy. rewrite (body_scan k K). change (str ":" ++ w'' ++ s ++ w''' ++ x7d :: rest) with (x3a :: w'' ++ s ++ w''' ++ x7d :: rest).
      rewrite after_ws by easy. rewrite IH; [|exact W''|lia|now apply ws_no_number]. rewrite after_not by easy. now rewrite after_ws.
    + now apply after_not.
  - intros w k w' w'' s w''' j s' l W K W' W'' D IH W3 _ IHl [|fuel] rest L; [lia|]. rewrite !app_length in L. change (length (str ",")) with 1%nat in L. rewrite <- !app_assoc.
    change (dq k) with (x22 :: k ++ [x22]). cbn [app]. rewrite app_head. split.
    + cbn [parse_members]. rewrite after_ws by easy. rewrite (body_scan k K).
      change (str ":" ++ w'' ++ s ++ w''' ++ str "," ++ s' ++ x7d :: rest) with (x3a :: w'' ++ s ++ w''' ++ x2c :: s' ++ x7d :: rest).
      rewrite after_ws by easy. rewrite IH; [|exact W''|lia|now apply ws_no_number]. rewrite after_ws by easy. destruct (IHl fuel rest ltac:(lia)) as [P _]. now rewrite P.
    + now apply after_not.
Qed.
Lemma expect_inv w j s j' rest : expect w j s = Some (j', rest) -> j' = j /\ s = w ++ rest.
Proof.
  unfold expect. destruct (bytes_eqb (firstn (length w) s) w) eqn:E; [|discriminate]. intros [= <- <-]. apply bytes_eqb_eq in E. split; [reflexivity|].
  rewrite <- E at 1. now rewrite firstn_skipn.
Qed.
Lemma parsed_grammar fuel :
  (forall s j rest, parse_value fuel s = Some (j, rest) -> exists w t, ws w /\ denotes t j /\ s = w ++ t ++ rest)
  /\ (forall s l rest, parse_elements fuel s = Some (l, rest) -> exists t, elements t l /\ s = t ++ x5d :: rest)
  /\ (forall s l rest, parse_members fuel s = Some (l, rest) -> exists t, some_members t l /\ s = t ++ x7d :: rest).
Proof.
  induction fuel as [|fuel (IHv & IHe & IHm)]; [repeat split; discriminate|]. split; [|split].
  - intros s j rest H. cbn [parse_value] in H. destruct (skip_split s) as (w & W & E & _). destruct (skip_space s) as [|c t]; [discriminate H|]. exists w.
    destruct (Byte.eqb c x22) eqn:E1.
    { apply Byte.byte_dec_bl in E1. subst c. destruct (scan_string t) as [[raw r]|] eqn:S; [|discriminate H]. cbn [option_map] in H. injection H as <- <-.
      apply (scan_body _ _ _ _ (Nat.le_refl _)) in S as [B ->]. exists (dq raw). split; [exact W|]. split; [now constructor|]. rewrite E. change (dq raw) with (x22 :: raw ++ [x22]). cbn [app]. now rewrite app_head. }
    destruct (Byte.eqb c x7b) eqn:E2.
    { apply Byte.byte_dec_bl in E2. subst c. destruct (after x7d t) as [r|] eqn:A.
      - injection H as <- <-. apply after_inv in A as (w0 & W0 & ->). exists (str "{" ++ w0 ++ str "}"). split; [exact W|]. split; [now constructor|].
        rewrite E. change (str "{") with [x7b]. change (str "}") with [x7d]. cbn [app]. now rewrite app_head.
      - destruct (parse_members fuel t) as [[l r]|] eqn:P; [|discriminate H]. cbn [option_map] in H. injection H as <- <-. apply IHm in P as (u & M & ->).
        exists (str "{" ++ u ++ str "}"). split; [exact W|]. split; [now constructor|]. rewrite E. change (str "{") with [x7b]. change (str "}") with [x7d]. cbn [app]. now rewrite app_head. }
    destruct (Byte.eqb c x5b) eqn:E3.
    { apply Byte.byte_dec_bl in E3. subst c. destruct (after x5d t) as [r|] eqn:A.
      - injection H as <- <-. apply after_inv in A as (w0 & W0 & ->). exists (str "[" ++ w0 ++ str "]"). split; [exact W|]. split; [now constructor|].
        rewrite E. change (str "[") with [x5b]. change (str "]") with [x5d]. cbn [app]. now rewrite app_head.
      - destruct (parse_elements fuel t) as [[l r]|] eqn:P; [|discriminate H]. cbn [option_map] in H. injection H as <- <-. apply IHe in P as (u & M & ->).
        exists (str "[" ++ u ++ str "]"). split; [exact W|]. split; [now constructor|]. rewrite E. change (str "[") with [x5b]. change (str "]") with [x5d]. cbn [app]. now rewrite app_head. }
    destruct (Byte.eqb c x6e) eqn:E4. { apply expect_inv in H as [-> H]. exists (str "null"). split; [exact W|]. split; [constructor|]. now rewrite E, H. }
    destruct (Byte.eqb c x74) eqn:E5. { apply expect_inv in H as [-> H]. exists (str "true"). split; [exact W|]. split; [constructor|]. now rewrite E, H. }
    destruct (Byte.eqb c x66) eqn:E6. { apply expect_inv in H as [-> H]. exists (str "false"). split; [exact W|]. split; [constructor|]. now rewrite E, H. }
    destruct (span number_char (c :: t)) as [n r] eqn:Sp. apply span_inv in Sp as (Q & _ & _). destruct (is_number n) eqn:N; [|discriminate H]. injection H as <- <-.
    exists n. split; [exact W|]. split; [constructor; now apply number_inv|]. now rewrite E, Q.
  - intros s l rest H. cbn [parse_elements] in H. destruct (parse_value fuel s) as [[j r]|] eqn:P; [|discriminate H]. apply IHv in P as (w & t & W & D & ->).
    destruct (after x2c r) as [u|] eqn:A.
    + apply after_inv in A as (w' & W' & ->). destruct (parse_elements fuel u) as [[l' r']|] eqn:P; [|discriminate H]. cbn [option_map] in H. injection H as <- <-.
      apply IHe in P as (u' & El & ->). exists (w ++ t ++ w' ++ str "," ++ u'). split; [now constructor|]. rewrite <- !app_assoc. reflexivity.
    + destruct (after x5d r) as [u|] eqn:A'; [|discriminate H]. cbn [option_map] in H. injection H as <- <-. apply after_inv in A' as (w' & W' & ->).
      exists (w ++ t ++ w'). split; [now constructor|]. now rewrite <- !app_assoc.
  - intros s l rest H. cbn [parse_members] in H. destruct (after x22 s) as [t|] eqn:A; [|discriminate H]. apply after_inv in A as (w & W & ->).
    destruct (scan_string t) as [[k r]|] eqn:S; [|discriminate H]. apply (scan_body _ _ _ _ (Nat.le_refl _)) in S as [B ->].
    destruct (after x3a r) as [t|] eqn:A; [|discriminate H]. apply after_inv in A as (w' & W' & ->).
    destruct (parse_value fuel t) as [[j r]|] eqn:P; [|discriminate H]. apply IHv in P as (w'' & v & W'' & D & ->).
    destruct (after x2c r) as [u|] eqn:A.
    + apply after_inv in A as (w3 & W3 & ->). destruct (parse_members fuel u) as [[l' r']|] eqn:P; [|discriminate H]. cbn [option_map] in H. injection H as <- <-.
      apply IHm in P as (u' & El & ->). exists (w ++ dq k ++ w' ++ str ":" ++ w'' ++ v ++ w3 ++ str "," ++ u'). split; [now constructor|].
      unfold dq. rewrite <- !app_assoc. reflexivity.
    + destruct (after x7d r) as [u|] eqn:A'; [|discriminate H]. cbn [option_map] in H. injection H as <- <-. apply after_inv in A' as (w3 & W3 & ->).
      exists (w ++ dq k ++ w' ++ str ":" ++ w'' ++ v ++ w3). split; [now constructor|]. unfold dq. rewrite <- !app_assoc. reflexivity.
Qed.
Lemma parse_text s j : parse s = Some j <-> json_text s j.
Proof.
  unfold parse. split.
  - destruct (parse_value (3 * length s) s) as [[j' rest]|] eqn:P; [|discriminate]. apply parsed_grammar in P as (w & t & W & D & E).
    destruct (skip_split rest) as (w' & W' & Er & _). destruct (skip_space rest); [|discriminate].
    destruct (Z.leb_spec (nest j') 10000) as [N|N]; [|discriminate]. intros [= ->]. split; [|now apply nested_nest].
    exists w, t, w'. rewrite app_nil_r in Er. now rewrite E, Er.
  - intros [(w & t & w' & -> & W & D & W') N]. apply nested_nest in N. destruct grammar_parses as (G & _ & _). rewrite (G t j D w); [|exact W|rewrite !app_length; lia|].
    + rewrite <- (app_nil_r w'), skip_ws by exact W'. now rewrite (proj2 (Z.leb_le _ _) N).
    + rewrite <- (app_nil_r w'). apply ws_no_number; [exact W'|exact I].
Qed.
(** A text has one reading. *)
Lemma one_reading s j j' : grammatical s j -> grammatical s j' -> j = j'.
Proof.
  enough (H : forall j, grammatical s j -> exists rest, parse_value (3 * length s) s = Some (j, rest)).
  { intros A B. apply H in A as [r A], B as [r' B]. congruence. }
  intros k (w & t & w' & -> & W & D & W'). destruct grammar_parses as (G & _ & _). exists w'. apply (G t k D w); [exact W|rewrite !app_length; lia|].
  rewrite <- (app_nil_r w'). apply ws_no_number; [exact W'|exact I].
Qed.
Lemma number_leading lit : json_number lit -> digits lit -> forall t, lit = x30 :: t -> t = [].
Proof.
  intros N D t ->. apply number_ok in N. unfold is_number in N. cbn [drop_sign existsb] in N. change (Byte.eqb x30 x2d || false) with false in N. cbv iota in N.
  rewrite <- (app_nil_r (x30 :: t)), span_digits_app in N by (assumption || exact I). destruct t; [reflexivity|discriminate N].
Qed.
