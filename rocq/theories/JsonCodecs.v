(** Proofs about the JSON forms: the types of pkg/chain. *)
From Verif Require Import Base GoStd BaseProofs GoStdProofs SpecText SpecJson Chain AbiDyn Name Symbol Hex Numbers Time Keys Json JsonProofs.

(** ** Quiet texts *)
Lemma quiet_ascii s : Forall quiet s -> utf8 s.
Proof. intros H. apply ascii_utf8. eapply Forall_impl; [|exact H]. intros c [R _]. lia. Qed.
Definition quietb (c : byte) : bool := (32 <=? zb c) && (zb c <? 127) && negb (existsb (Byte.eqb c) [x22; x5c; x3c; x3e; x26]).
Lemma quiet_b c : quiet c <-> quietb c = true.
Proof.
  unfold quietb, quiet. rewrite !andb_true_iff, negb_true_iff. split.
  - intros [R N]. split; [split; lia|]. destruct (existsb _ _) eqn:E; [|reflexivity]. apply existsb_exists in E as (x & I & E).
    apply Byte.byte_dec_bl in E. subst x. contradiction.
  - intros [[A B] C]. split; [lia|]. intros I. assert (existsb (Byte.eqb c) [x22; x5c; x3c; x3e; x26] = true); [|congruence].
    apply existsb_exists. exists c. split; [exact I|]. now apply Byte.byte_dec_lb.
Qed.
Lemma quiet_self sh c : quiet c -> put_ascii sh c = [c] /\ (zb c <? 128) = true.
Proof. rewrite quiet_b. intros H. destruct c; try discriminate H; destruct sh; split; reflexivity. Qed.
Lemma quiet_text sh s : Forall quiet s -> put_chars sh 0 s = s.
Proof.
  induction 1 as [|c s H _ IH]; [reflexivity|]. destruct (quiet_self sh c H) as [E L]. rewrite put_0, L, E, IH. reflexivity.
Qed.
Lemma quiet_quote sh s : Forall quiet s -> quote sh s = JStr s.
Proof. intros H. unfold quote. now rewrite quiet_text. Qed.
Lemma quiet_raw s : Forall quiet s -> raw_ok s /\ unquote s = Ok s.
Proof.
  intros H. destruct (string_ok true s (quiet_ascii s H)) as [A B]. rewrite quiet_text in A, B by exact H.
  split; [exact B|]. unfold unquote. now rewrite A.
Qed.
Lemma digit_quiet c : digit c -> quiet c.
Proof. intros H. apply quiet_b. unfold digit in H. destruct c; cbn in H; try lia; reflexivity. Qed.
Lemma digits_quiet s : digits s -> Forall quiet s.
Proof. apply Forall_impl, digit_quiet. Qed.
Lemma is_dec_digit c : digit c -> is_dec c = true.
Proof. intros H. unfold digit in H. destruct c; cbn in H; try lia; reflexivity. Qed.

(** ** Printing *)
Lemma dq_quoted s : quoted s = dq s.
Proof. reflexivity. Qed.
Lemma commas_map {A} (f : A -> list byte) l : forall x, commas (map f (x :: l)) = f x ++ flat_map (fun y => x2c :: f y) l.
Proof.
  induction l as [|y l IH]; intros x; [cbn [map commas flat_map]; now rewrite app_nil_r|].
  change (commas (map f (x :: y :: l))) with (f x ++ x2c :: commas (map f (y :: l))). now rewrite IH.
Qed.
Lemma print_arr l : print (JArr l) = array (map print l).
Proof. destruct l as [|j l]; [reflexivity|]. unfold array. rewrite commas_map, <- app_assoc. reflexivity. Qed.
Lemma print_obj l : print (JObj l) = str "{" ++ commas (map (fun kj => dq (fst kj) ++ str ":" ++ print (snd kj)) l) ++ str "}".
Proof.
  destruct l as [|[k j] l]; [reflexivity|]. rewrite commas_map. cbn [print fst snd]. f_equal. rewrite dq_quoted.
  change (str ":") with [x3a]. rewrite <- !app_assoc. cbn [app]. f_equal. f_equal. f_equal. f_equal.
  induction l as [|[k' j'] l IH]; [reflexivity|]. cbn [flat_map fst snd]. rewrite IH. reflexivity.
Qed.
Lemma print_object l kvs : map (fun '(k, j) => (k, print j)) l = map (fun '(k, t) => (str k, t)) kvs -> print (JObj l) = object kvs.
Proof.
  intros E. rewrite print_obj. unfold object. f_equal. f_equal. f_equal. revert l E. induction kvs as [|[k t] kvs IH]; intros l E; destruct l as [|[k' j] l]; try discriminate E; [reflexivity|].
  cbn [map] in *. injection E as -> <- E. f_equal. now apply IH.
Qed.

(** ** Round trips *)
(** Marshal yields something, only texts in [P], and they are read back. *)
Definition full {T} (c : codec T) (zero v : T) (P : list byte -> Prop) : Prop :=
  (exists j, enc c v j) /\ forall j, enc c v j -> good j /\ dec c zero j = Ok v /\ P (print j).
Lemma full_text {T} (c : codec T) zero v P : (forall j, enc c v j -> nest j <= 10000) -> full c zero v P ->
  (exists text, Marshal c v text) /\ forall text, Marshal c v text -> P text /\ Unmarshal c zero text = Ok v.
Proof.
  intros N [[j E] F]. split; [exists (print j), j; auto|]. intros text (j' & E' & ->). destruct (F j' E') as (G & D & H).
  split; [exact H|]. unfold Unmarshal. now rewrite parse_print by auto.
Qed.
Lemma full_weaken {T} (c : codec T) zero v (P Q : list byte -> Prop) : (forall s, P s -> Q s) -> full c zero v P -> full c zero v Q.
Proof. intros H [E F]. split; [exact E|]. intros j J. destruct (F j J) as (A & B & C). auto. Qed.
Lemma full_text_codec {T} sh (marshal : T -> res (list byte)) unmarshal nil zero v s (P : list byte -> Prop) :
  marshal v = Ok s -> Forall quiet s -> unmarshal zero s = Ok (v, None) -> P s ->
  full (j_text sh marshal unmarshal nil) zero v (in_quotes P).
Proof.
  intros M Q E H. split; [exists (quote sh s), s; auto|]. intros j (s' & M' & ->). rewrite M in M'. injection M' as <-.
  rewrite quiet_quote by exact Q. destruct (quiet_raw s Q) as [R U]. split; [now constructor|]. split.
  - cbn [j_text dec dec_text]. rewrite U. cbn [rbind]. now rewrite E.
  - exists s. split; [exact H|apply dq_quoted].
Qed.
Lemma span_digits s : digits s -> span is_dec s = (s, []).
Proof.
  intros D. assert (H : forallb is_dec s = true) by (apply forallb_forall; intros c I; apply is_dec_digit; eapply Forall_forall; [exact D|exact I]).
  pose proof (span_all is_dec s [] H I) as E. now rewrite app_nil_r in E.
Qed.
Lemma digits_number n s : numeral n s -> is_number s = true /\ forallb number_char s = true.
Proof.
  intros (NE & D & _ & Z). split.
  - unfold is_number. assert (drop_sign [x2d] s = s) as ->.
    { destruct s as [|c t]; [reflexivity|]. apply Forall_inv in D. cbn [drop_sign existsb]. unfold digit in D.
      destruct (Byte.eqb c x2d) eqn:E; [|reflexivity]. apply Byte.byte_dec_bl in E. subst c. cbn in D. lia. }
    rewrite span_digits by exact D. destruct s as [|c t]; [congruence|].
    destruct (Byte.eqb c x30) eqn:E; [|reflexivity]. apply Byte.byte_dec_bl in E. subst c. now rewrite (Z t eq_refl).
  - apply forallb_forall. intros c I. unfold number_char. rewrite is_dec_digit; [reflexivity|]. eapply Forall_forall; [exact D|exact I].
Qed.
Lemma number_good n s : numeral n s -> good (JNum s).
Proof. intros H. destruct (digits_number n s H). now constructor. Qed.
Lemma ParseUint_numeral n s : numeral n s -> n < 2 ^ 64 -> ParseUint s 64 = (n, None).
Proof. intros (NE & D & V & _) L. apply ParseUint_ok; [lia|]. auto. Qed.
Lemma full_uint bits old v : 0 <= bits <= 64 -> 0 <= v < 2 ^ bits -> full (j_uint bits) old v (numeral v).
Proof.
  intros B V. assert (L : 2 ^ bits <= 2 ^ 64) by (apply Z.pow_le_mono_r; lia).
  split; [eexists; reflexivity|]. intros j ->.
  pose proof (FormatUint_numeral v ltac:(lia)) as N. split; [exact (number_good _ _ N)|]. split; [|exact N].
  cbn [j_uint dec]. rewrite (ParseUint_numeral v _ N) by lia. destruct (Z.ltb_spec v (2 ^ bits)); [reflexivity|lia].
Qed.
Lemma full_slice {T} (c : codec T) zero l (P : T -> list byte -> Prop) : Forall (fun v => forall old, full c old v (P v)) l ->
  forall old, full (j_slice zero c) old l (list_json P l).
Proof.
  intros F old. split.
  - assert (H : exists js, Forall2 (enc c) l js).
    { clear old. induction F as [|v l H _ [js IH]]; [exists []; constructor|]. destruct (H v) as [[j E] _]. exists (j :: js). now constructor. }
    destruct H as [js H]. exists (JArr js). left. eauto.
  - intros j [(js & E & ->)|[-> ->]]; [|split; [constructor|split; [reflexivity|now right]]].
    enough (Forall good js /\ dec_elements (dec c) zero old js = Ok l /\ Forall2 P l (map print js)) as (G & D & H).
    { split; [now constructor|]. split; [exact D|]. left. exists (map print js). split; [exact H|apply print_arr]. }
    revert old. induction E as [|v j l js Ej _ IH]; intros old; [split; [constructor|split; [reflexivity|constructor]]|].
    apply Forall_cons_iff in F as [B F]. destruct (IH F (tl old)) as (G & D & H). destruct (B (hd zero old)) as [_ B']. destruct (B' j Ej) as (Gj & Dj & Hj).
    split; [now constructor|]. split; [|now constructor]. cbn [dec_elements]. rewrite Dj. cbn [rbind]. now rewrite D.
Qed.
Lemma full_ptr {T} (c : codec T) zero o (P : option T -> list byte -> Prop) :
  match o with Some v => (forall old, full c old v (P (Some v))) /\ ~ enc c v JNull | None => P None (str "null") end ->
  forall old, full (j_ptr zero c) old o (P o).
Proof.
  intros H old. destruct o as [v|].
  - destruct H as [H N]. destruct (H match old with Some v => v | None => zero end) as [[j E] F].
    split; [exists j; exact E|]. clear j E. intros j E. destruct (F j E) as (G & D & Q). split; [exact G|]. split; [|exact Q].
    cbn [j_ptr dec]. rewrite D. destruct j; try reflexivity. contradiction.
  - split; [exists JNull; reflexivity|]. intros j E. cbn [j_ptr enc] in E. subst j. split; [constructor|]. split; [reflexivity|exact H].
Qed.
(** The fields of a struct, in turn. *)
Fixpoint apply_all {T} (fs : list (jfield T)) (os : list (option json)) (v : T) : res T :=
  match fs, os with
  | f :: fs, Some j :: os => rbind (f_dec f v j) (apply_all fs os)
  | f :: fs, None :: os => apply_all fs os v
  | _, _ => Ok v
  end.
Fixpoint distinct (l : list (list byte)) : bool :=
  match l with [] => true | x :: l => negb (existsb (bytes_eqb x) l) && distinct l end.
Definition named {T} (fs : list (jfield T)) : Prop :=
  distinct (map f_name fs) = true /\ Forall (fun f => Forall quiet (f_name f)) fs.
Definition namedb {T} (fs : list (jfield T)) : bool :=
  distinct (map f_name fs) && forallb (fun f => forallb quietb (f_name f)) fs.
Lemma named_b {T} (fs : list (jfield T)) : namedb fs = true -> named fs.
Proof.
  unfold namedb, named. intros H. apply andb_prop in H as [A B]. split; [exact A|]. rewrite forallb_forall in B. apply Forall_forall. intros f I.
  specialize (B f I). rewrite forallb_forall in B. apply Forall_forall. intros c J. apply quiet_b. auto.
Qed.
Lemma find_named {T} (fs : list (jfield T)) : forall f, distinct (map f_name fs) = true -> In f fs -> find (fun g => bytes_eqb (f_name g) (f_name f)) fs = Some f.
Proof.
  induction fs as [|g fs IH]; intros f D I; [contradiction|]. cbn [map distinct find] in *. apply andb_prop in D as [N D].
  destruct I as [->|I]; [now rewrite bytes_eqb_refl|].
  destruct (bytes_eqb (f_name g) (f_name f)) eqn:E; [|now apply IH].
  exfalso. apply negb_true_iff in N. assert (X : existsb (bytes_eqb (f_name g)) (map f_name fs) = true); [|congruence].
  apply existsb_exists. exists (f_name f). split; [now apply in_map|exact E].
Qed.
Lemma dec_members_all {T} fold (all fs : list (jfield T)) : named all -> (forall f, In f fs -> In f all) ->
  forall os v, dec_members fold all v (members fs os) = apply_all fs os v.
Proof.
  intros [D Q]. induction fs as [|f fs IH]; intros S os v; [reflexivity|].
  destruct os as [|[j|] os]; [reflexivity| |].
  - cbn [members dec_members apply_all]. assert (I : In f all) by (apply S; now left).
    destruct (quiet_raw (f_name f)) as [_ ->]; [eapply Forall_forall in Q; eassumption|]. cbn [rbind].
    unfold find_field. rewrite find_named by assumption. destruct (f_dec f v j); cbn [rbind]; try reflexivity.
    apply IH. intros g G. apply S. now right.
  - cbn [members apply_all]. apply IH. intros g G. apply S. now right.
Qed.
Definition all_good (os : list (option json)) : Prop := Forall (fun o => match o with Some j => good j | None => True end) os.
(** The fields [fs] take the value from [v] to [w] and print what [R] describes. *)
Definition fields_ok {T} (fs : list (jfield T)) (v w : T) (R : list (string * list byte) -> Prop) : Prop :=
  (exists os, Forall2 (fun f o => f_enc f w o) fs os)
  /\ forall os, Forall2 (fun f o => f_enc f w o) fs os -> all_good os /\ apply_all fs os v = Ok w
       /\ exists kvs, R kvs /\ map (fun '(k, j) => (k, print j)) (members fs os) = map (fun '(k, t) => (str k, t)) kvs.
Lemma fields_done {T} (v w : T) (R : list (string * list byte) -> Prop) : v = w -> R [] -> fields_ok [] v w R.
Proof.
  intros -> H. split; [exists []; constructor|]. intros os F. inversion F; subst. split; [constructor|]. split; [reflexivity|]. now exists [].
Qed.
Lemma fields_one {T A} (f : jfield T) name (c : codec A) (get : T -> A) (set : T -> A -> T) (fs : list (jfield T)) (v w : T) (P : list byte -> Prop) (R : list (string * list byte) -> Prop) :
  f_name f = str name -> (forall o, f_enc f w o <-> exists j, enc c (get w) j /\ o = Some j) ->
  (forall j, f_dec f v j = rbind (dec c (get v) j) (fun x => Ok (set v x))) ->
  full c (get v) (get w) P ->
  (forall text, P text -> fields_ok fs (set v (get w)) w (fun kvs => R ((name, text) :: kvs))) ->
  fields_ok (f :: fs) v w R.
Proof.
  intros Nm En De [[j0 E0] B] H. split.
  - destruct (B j0 E0) as (_ & _ & P0). destruct (H _ P0) as [[os F] _]. exists (Some j0 :: os). constructor; [apply En; eauto|exact F].
  - intros os F. inversion F as [|? o ? os' E F']; subst. apply En in E as (j & E & ->). destruct (B j E) as (G & D & Pj).
    destruct (H _ Pj) as [_ K]. destruct (K _ F') as (G' & X & kvs & Rk & Mk).
    split; [now constructor|]. split; [cbn [apply_all]; rewrite De, D; exact X|].
    exists ((name, print j) :: kvs). split; [exact Rk|]. cbn [members map]. now rewrite Nm, Mk.
Qed.
Lemma fields_fld {T A} name (c : codec A) (get : T -> A) set (fs : list (jfield T)) (v w : T) (P : list byte -> Prop) (R : list (string * list byte) -> Prop) :
  full c (get v) (get w) P ->
  (forall text, P text -> fields_ok fs (set v (get w)) w (fun kvs => R ((name, text) :: kvs))) ->
  fields_ok (fld name c get set :: fs) v w R.
Proof. apply fields_one; reflexivity. Qed.
Lemma fields_omit {T A} name (c : codec (list A)) (get : T -> list A) set (fs : list (jfield T)) (v w : T) (P : A -> list byte -> Prop) (R : list (string * list byte) -> Prop) :
  full c (get v) (get w) (list_json P (get w)) -> (get w = [] -> set v [] = v) ->
  (forall kv, optional_json P name (get w) kv -> fields_ok fs (set v (get w)) w (fun kvs => R (kv ++ kvs))) ->
  fields_ok (fld_omit name c get set :: fs) v w R.
Proof.
  intros F Z H. destruct (get w) as [|x l] eqn:Q.
  - specialize (H [] eq_refl). rewrite Z in H by reflexivity. destruct H as [[os E] K]. split.
    + exists (None :: os). constructor; [|exact E]. cbn [fld_omit f_enc]. now rewrite Q.
    + intros os' F'. inversion F' as [|? o ? os'' E' F'']; subst. cbn [fld_omit f_enc] in E'. rewrite Q in E'. subst o.
      destruct (K _ F'') as (G & X & kvs & Rk & Mk). split; [now constructor|]. split; [exact X|]. exists kvs. auto.
  - apply (fields_one _ name c get set fs v w (list_json P (x :: l))); [reflexivity| |reflexivity|now rewrite Q|].
    + intros o. cbn [fld_omit f_enc]. rewrite Q. reflexivity.
    + intros text T0. rewrite Q. apply (H [(name, text)]). exists text. auto.
Qed.
Lemma full_struct {T} fold (fs : list (jfield T)) zero v (R : list (string * list byte) -> Prop) : namedb fs = true -> fields_ok fs zero v R ->
  full (j_struct fold fs) zero v (fun text => exists kvs, R kvs /\ text = object kvs).
Proof.
  intros N [[os0 F0] H]. apply named_b in N. split; [exists (JObj (members fs os0)), os0; auto|]. clear os0 F0.
  intros j (os & F & ->). destruct (H os F) as (G & A & kvs & Rk & Mk). split; [|split].
  - constructor. destruct N as [_ Q]. clear H A Mk. induction F as [|f o fs os _ _ IH]; [constructor|].
    apply Forall_cons_iff in Q as [Qf Q]. apply Forall_cons_iff in G as [Go G]. specialize (IH Q G).
    destruct o as [j|]; cbn [members]; [|exact IH]. constructor; [|exact IH]. split; [now apply quiet_raw|exact Go].
  - cbn [j_struct dec]. rewrite dec_members_all; auto.
  - exists kvs. split; [exact Rk|]. now apply print_object.
Qed.
Lemma struct_not_null {T} fold (fs : list (jfield T)) v : ~ enc (j_struct fold fs) v JNull.
Proof. intros (os & _ & H). discriminate H. Qed.
