(** The programs that the templates of pkg/codegen spell, and the proof that they do. *)
From Verif Require Import Base Prog AbiPrim Chain Values Leaf GoStd Numbers Reflect Codegen GoLang CodegenSource.
From Verif Require Import SpecText GoStdProofs.

Definition var (x : string) : gexpr := EVar (str x).
Definition fld (name : ident) : gexpr := ESel (var "v") name.
Definition place_expr (name : ident) (p : gplace) : gexpr :=
  let a := if star p then EParen (EStar (fld name)) else fld name in
  if index p then EIndex a (var "i") else a.
Definition checked (l : list gexpr) (r : gexpr) : gstmt :=
  GIf (Some (l, r)) (ENe (var "err") (var "nil")) (GReturn (var "err")).
Fixpoint go_code (name : ident) (T : list token) (s : stmt) : gstmt :=
  match s with
  | SWrite k p => checked [var "err"] (ECall1 (ESel (var "e") (str "Write" ++ method_name k)) (place_expr name p))
  | SMarshal p => checked [var "err"] (ECall1 (ESel (place_expr name p) (str "MarshalABI")) (var "e"))
  | SWriteSlice p b =>
      GSeq (GSet [var "length"] (ECall1 (var "len") (if star p then EStar (fld name) else fld name)))
        (GSeq (checked [var "err"] (ECall1 (ESel (var "e") (str "WriteVaruint")) (ECall1 (var "uint") (var "length"))))
           (GFor (str "i") (var "length") (go_code name T b)))
  | SWriteArray n b | SReadArray n b => GFor (str "i") (ENum n) (go_code name T b)
  | SWriteOptional opt b =>
      GSeq (GSet [var "exists"] (ENe (fld name) (var "nil")))
        (if opt then GSeq (checked [var "err"] (ECall1 (ESel (var "e") (str "WriteBool")) (var "exists")))
                       (GIf None (var "exists") (go_code name T b))
         else GIfElse (var "exists") (go_code name T b)
                (GReturn (ECall1 (ESel (var "errors") (str "New")) (EStr (str "encountered nil for non-optional field: " ++ name)))))
  | SRead k p => checked [place_expr name p; var "err"] (ECall0 (ESel (var "d") (str "Read" ++ method_name k)))
  | SReadTmp k p =>
      GSeq (GVar (str "tmp") T)
        (GSeq (checked [var "tmp"; var "err"] (ECall0 (ESel (var "d") (str "Read" ++ method_name k))))
           (GSet [place_expr name p] (EAddr (var "tmp"))))
  | SUnmarshal p => checked [var "err"] (ECall1 (ESel (place_expr name p) (str "UnmarshalABI")) (var "d"))
  | SReadSlice b =>
      GSeq (checked [var "length"; var "err"] (ECall0 (ESel (var "d") (str "ReadVaruint"))))
        (GSeq (GSet [fld name] (EMake T (var "length")))
           (GFor (str "i") (ECall1 (var "int") (var "length")) (go_code name T b)))
  | SReadOptional b =>
      GSeq (checked [var "exists"; var "err"] (ECall0 (ESel (var "d") (str "ReadBool"))))
        (GIf None (var "exists") (go_code name T b))
  end.
Fixpoint sequence (l : list gstmt) : gstmt := match l with [] => GSkip | s :: l => GSeq s (sequence l) end.
Definition body (uses_exists uses_length : bool) (ltype : string) (code : gstmt) : gstmt :=
  GSeq (GVar (str "err") [word "error"])
    (GSeq (if uses_exists then GVar (str "exists") [word "bool"] else GSkip)
       (GSeq (if uses_length then GVar (str "length") [word ltype] else GSkip)
          (GSeq code (GReturn (var "err"))))).
Definition marshal_func (struct : ident) (fs : list (ident * field)) : gfunc :=
  {| g_recv := str "v"; g_ptr := false; g_type := struct; g_name := str "MarshalABI"; g_param := str "e"; g_ptype := str "Encoder";
     g_body := body (existsb (fun '(_, f) => f_optional f || f_ptr f) fs) (existsb (fun '(_, f) => f_slice f || f_array f) fs) "int"
                 (sequence (map (fun '(name, f) => go_code name (type_tokens (f_type f)) (gen_write f)) fs)) |}.
Definition unmarshal_func (struct : ident) (fs : list (ident * field)) : gfunc :=
  {| g_recv := str "v"; g_ptr := true; g_type := struct; g_name := str "UnmarshalABI"; g_param := str "d"; g_ptype := str "Decoder";
     g_body := body (existsb (fun '(_, f) => f_optional f) fs) (existsb (fun '(_, f) => f_slice f) fs) "uint"
                 (sequence (map (fun '(name, f) => go_code name (type_tokens (f_type f)) (gen_read f)) fs)) |}.

(** ** Scanning *)
Definition is_word (s : list byte) : Prop := s <> [] /\ forallb word_char s = true.
(** [text] spells [ts] on lines of its own: whatever comes before, it ends that line. *)
Definition spells (text : list byte) (ts : list token) : Prop :=
  forall st o, step st x0a = (o, Idle) -> step (scan text st) x0a = (rev ts ++ o, Idle).

Lemma scan_app a b st : scan (a ++ b) st = scan b (scan a st).
Proof. apply fold_left_app. Qed.
Lemma scan_cons c s st : scan (c :: s) st = scan s (step st c).
Proof. reflexivity. Qed.
Lemma spells_app a b s t : spells a s -> spells b t -> spells (a ++ b) (s ++ t).
Proof. intros A B st o H. rewrite scan_app, rev_app_distr, <- app_assoc. apply B, A, H. Qed.
Lemma spells_nil : spells [] [].
Proof. intros st o H. exact H. Qed.
(** Text that begins with a new line. *)
Lemma spells_line rest ts : (forall o, step (scan rest (o, Idle)) x0a = (rev ts ++ o, Idle)) -> spells (x0a :: rest) ts.
Proof. intros H st o E. rewrite scan_cons, E. apply H. Qed.

Lemma word_not c : word_char c = true -> Byte.eqb c x22 = false /\ Byte.eqb c x5c = false /\ Byte.eqb c x0a = false.
Proof. destruct c; try discriminate; repeat split; reflexivity. Qed.
Lemma word_not_double s c : word_char c = true -> double s c = false.
Proof.
  intros H. unfold double, one_of. cbn [existsb]. unfold same_text.
  repeat match goal with |- context [byte_list_dec ?a ?b] => destruct (byte_list_dec a b) as [X|_];
    [exfalso; injection X as _ Y; subst c; discriminate H|] end. reflexivity.
Qed.
Lemma scan_in_word s acc o : forallb word_char s = true -> scan s (o, InWord acc) = (o, InWord (rev s ++ acc)).
Proof.
  revert acc. induction s as [|c s IH]; intros acc H; [reflexivity|]. cbn [forallb] in H. apply andb_prop in H as [C H].
  rewrite scan_cons. cbn [step]. rewrite C, IH by exact H. cbn [rev]. now rewrite <- app_assoc.
Qed.
Lemma scan_word s o : is_word s -> scan s (o, Idle) = (o, InWord (rev s)).
Proof.
  intros [N H]. destruct s as [|c s]; [congruence|]. cbn [forallb] in H. apply andb_prop in H as [C H].
  rewrite scan_cons. cbn [step]. unfold start. rewrite C. now apply scan_in_word.
Qed.
Lemma scan_sign_word s c o : is_word s -> scan s (o, InSign c) = (Sign [c] :: o, InWord (rev s)).
Proof.
  intros [N H]. destruct s as [|d s]; [congruence|]. cbn [forallb] in H. apply andb_prop in H as [C H].
  rewrite scan_cons. cbn [step]. rewrite word_not_double by exact C. unfold start. rewrite C. now apply scan_in_word.
Qed.
Lemma scan_quote s acc o : forallb word_char s = true -> scan s (o, InQuote acc) = (o, InQuote (rev s ++ acc)).
Proof.
  revert acc. induction s as [|c s IH]; intros acc H; [reflexivity|]. cbn [forallb] in H. apply andb_prop in H as [C H].
  rewrite scan_cons. cbn [step]. destruct (word_not c C) as (-> & -> & ->). rewrite IH by exact H. cbn [rev]. now rewrite <- app_assoc.
Qed.

(** Indenting a piece of code does not change what it spells. *)
Lemma after_line st : step (step st x0a) x09 = step st x0a.
Proof.
  destruct st as [out m].
  assert (S : forall o, step (start o x0a) x09 = start o x0a) by reflexivity.
  destruct m; try reflexivity.
  cbn [step]. change (word_char x0a) with false. cbv iota.
  destruct (double c x0a) eqn:D; [|apply S].
  exfalso. destruct c; discriminate D.
Qed.
Lemma line_blank st o : step st x0a = (o, Idle) -> step (step st x09) x0a = (o, Idle).
Proof.
  destruct st as [out m]. destruct m; try (intros H; exact H); try discriminate.
  cbn [step]. assert (D : forall d, d = x0a \/ d = x09 -> double c d = false) by (intros d [-> | ->]; destruct c; reflexivity).
  rewrite !D by auto. intros H. exact H.
Qed.
Lemma scan_indented s st : scan (flat_map (fun c => if Byte.eqb c x0a then [x0a; x09] else [c]) s) st = scan s st.
Proof.
  revert st. induction s as [|c s IH]; intros st; [reflexivity|]. cbn [flat_map]. rewrite scan_app, IH, scan_cons.
  destruct (Byte.eqb c x0a) eqn:C; [|reflexivity]. apply Byte.byte_dec_bl in C. subst c.
  f_equal. apply after_line.
Qed.
Lemma spells_indent s ts : spells s ts -> spells (indent s) ts.
Proof. intros H st o E. unfold indent. rewrite scan_cons, scan_indented. apply H. now apply line_blank. Qed.

(** A piece of a line. *)
Definition emits (w : list byte) (m : mode) (ts : list token) (m' : mode) : Prop := forall o, scan w (o, m) = (rev ts ++ o, m').
Lemma emits_app a b m s m1 t m2 : emits a m s m1 -> emits b m1 t m2 -> emits (a ++ b) m (s ++ t) m2.
Proof. intros A B o. now rewrite scan_app, A, B, rev_app_distr, app_assoc. Qed.
Lemma emits_nil m : emits [] m [] m.
Proof. intros o. reflexivity. Qed.
Lemma emits_eq w m ts m' ts' : emits w m ts m' -> ts = ts' -> emits w m ts' m'.
Proof. now intros H <-. Qed.
Lemma emits_word s : is_word s -> emits s Idle [] (InWord (rev s)).
Proof. intros H o. now rewrite scan_word. Qed.
Lemma emits_more s acc : forallb word_char s = true -> emits s (InWord acc) [] (InWord (rev s ++ acc)).
Proof. intros H o. now rewrite scan_in_word. Qed.
Lemma emits_sign_word s c : is_word s -> emits s (InSign c) [Sign [c]] (InWord (rev s)).
Proof. intros H o. now rewrite scan_sign_word. Qed.
Lemma emits_quoted s acc : forallb word_char s = true -> emits s (InQuote acc) [] (InQuote (rev s ++ acc)).
Proof. intros H o. now rewrite scan_quote. Qed.
(** Behind a word. *)
Lemma emits_flush c w acc x ts m : word_char c = false -> rev acc = x -> emits (c :: w) Idle ts m -> emits (c :: w) (InWord acc) (Word x :: ts) m.
Proof.
  intros C <- H o. specialize (H (Word (rev acc) :: o)). rewrite scan_cons in *. cbn [step] in *. rewrite C. rewrite H.
  cbn [rev]. now rewrite <- app_assoc.
Qed.
Ltac known :=
  match goal with |- emits ?w ?m _ _ =>
    let r := eval vm_compute in (scan w ([], m)) in
    match r with (?o, ?m') =>
      let ts := eval vm_compute in (rev o) in
      let H := fresh in
      assert (H : emits w m ts m') by (let o := fresh in intros o; vm_compute; reflexivity); exact H
    end
  end.

(** The end of a line. *)
Lemma line_idle w ts : emits w Idle ts Idle -> (exists ts' t, ts = ts' ++ [t] /\ ends_statement t = true) -> spells (x0a :: w) (ts ++ [sign ";"]).
Proof.
  intros H (ts' & t & -> & T). apply spells_line. intros o. rewrite H. rewrite !rev_app_distr. cbn [rev app]. cbn [step]. unfold start.
  change (word_char x0a) with false. change (Byte.eqb x0a x22) with false. change (Byte.eqb x0a x0a) with true. cbv iota.
  now rewrite T.
Qed.
Lemma line_word w ts acc : emits w Idle ts (InWord acc) -> ends_statement (Word (rev acc)) = true -> spells (x0a :: w) (ts ++ [Word (rev acc); sign ";"]).
Proof.
  intros H T. apply spells_line. intros o. rewrite H. rewrite !rev_app_distr. cbn [rev app step]. change (word_char x0a) with false. cbv iota.
  unfold start. change (word_char x0a) with false. change (Byte.eqb x0a x22) with false. change (Byte.eqb x0a x0a) with true. cbv iota.
  now rewrite T.
Qed.
Lemma brace_open ts o : step (rev (ts ++ [sign "{"]) ++ o, Idle) x0a = (rev (ts ++ [sign "{"]) ++ o, Idle).
Proof. rewrite rev_app_distr. reflexivity. Qed.
Lemma tabs n o : scan (repeat x09 n) (o, Idle) = (o, Idle).
Proof. induction n as [|n IH]; [reflexivity|]. exact IH. Qed.
(** [head {] and code, and the closing brace on a line of its own. *)
Lemma block head ts code cs n : emits head Idle (ts ++ [sign "{"]) Idle -> spells code cs ->
  spells (x0a :: head ++ code ++ nl n ++ str "}") (ts ++ sign "{" :: cs ++ [sign "}"; sign ";"]).
Proof.
  intros H C. apply spells_line. intros o. rewrite scan_app, H, scan_app. unfold nl. rewrite scan_app, scan_cons, (C _ _ (brace_open ts o)), tabs.
  cbn. rewrite !rev_app_distr. cbn [rev]. rewrite !rev_app_distr. cbn [rev app]. now rewrite <- !app_assoc.
Qed.
Lemma block_else head ts code cs n w ts' : emits head Idle (ts ++ [sign "{"]) Idle -> spells code cs ->
  emits w Idle (ts' ++ [sign "}"]) Idle ->
  spells (x0a :: head ++ code ++ nl n ++ w) (ts ++ sign "{" :: cs ++ ts' ++ [sign "}"; sign ";"]).
Proof.
  intros H C W. apply spells_line. intros o. rewrite scan_app, H, scan_app. unfold nl. rewrite scan_app, scan_cons, (C _ _ (brace_open ts o)), tabs, W.
  rewrite !rev_app_distr. cbn [rev app]. rewrite !rev_app_distr. cbn [rev app]. rewrite <- !app_assoc. reflexivity.
Qed.

Lemma place_emits name st ix c rest ts m : is_word name -> word_char c = false -> emits (c :: rest) Idle ts m ->
  emits (when st (str "(*") ++ str "v." ++ name ++ when st (str ")") ++ when ix (str "[i]") ++ c :: rest) Idle
    (etoks (place_expr name {| star := st; index := ix |}) ++ ts) m.
Proof.
  intros W C H. pose proof (rev_involutive name) as R.
  destruct st, ix; cbn [when app];
    (eapply emits_eq;
       [repeat first [eapply emits_app; [known|]];
        eapply emits_app; [exact (emits_word name W)|];
        first [refine (emits_app (str ")") _ _ _ _ _ _ (emits_flush x29 [] _ _ _ _ eq_refl R _) _); [known|]
              |refine (emits_app (str "[i]") _ _ _ _ _ _ (emits_flush x5b _ _ _ _ _ eq_refl R _) _); [known|]
              |refine (emits_flush c rest _ _ _ _ C R _)];
        try (eapply emits_app; [known|]); exact H
       |reflexivity]).
Qed.
Lemma spells_eq s ts ts' : spells s ts -> ts = ts' -> spells s ts'.
Proof. now intros H <-. Qed.

Lemma method_word k : forallb word_char (method_name k) = true.
Proof. destruct k; reflexivity. Qed.
(** "Write" or "Read" and the name of a method, and an opening parenthesis. *)
Lemma method_emits p acc k rest ts m : rev acc = p -> emits (x28 :: rest) Idle ts m ->
  emits (method_name k ++ x28 :: rest) (InWord acc) (Word (p ++ method_name k) :: ts) m.
Proof.
  intros <- H. eapply emits_eq; [eapply emits_app; [apply emits_more, method_word|]|].
  - refine (emits_flush x28 rest _ _ _ _ eq_refl _ H). now rewrite rev_app_distr, rev_involutive.
  - reflexivity.
Qed.
Definition err_toks : list token := [sign ";"; word "err"; sign "!="; word "nil"; sign "{"; word "return"; word "err"; sign ";"; sign "}"].
Lemma return_emits : emits return_err Idle err_toks Idle.
Proof. known. Qed.
Lemma checked_toks l r : stoks (checked l r) = (word "if" :: set_toks l r ++ err_toks) ++ [sign ";"].
Proof. unfold checked. cbn [stoks]. rewrite <- !app_assoc. cbn [app]. rewrite <- !app_assoc. reflexivity. Qed.
Lemma err_ends ts : exists ts' t, ts ++ err_toks = ts' ++ [t] /\ ends_statement t = true.
Proof. exists (ts ++ removelast err_toks), (sign "}"). split; [now rewrite <- app_assoc|reflexivity]. Qed.
Lemma spells_checked w l r : emits w Idle (word "if" :: set_toks l r) Idle -> spells (x0a :: w ++ return_err) (stoks (checked l r)).
Proof.
  intros H. rewrite checked_toks. apply line_idle.
  - exact (emits_app _ _ _ _ _ _ _ H return_emits).
  - apply (err_ends (word "if" :: set_toks l r)).
Qed.

Definition field_place (f : field) (st : bool) : gplace := {| star := st; index := many f |}.
Lemma write_spells name f k T : is_word name ->
  spells (write_template name f k) (stoks (go_code name T (SWrite k (field_place f (f_ptr f))))).
Proof.
  intros W. cbn [go_code].
  assert (EQ : write_template name f k = x0a :: ((x09 :: str "if err = e.Write" ++ method_name k ++ x28 :: when (f_ptr f) (str "(*") ++ str "v." ++ name
     ++ when (f_ptr f) (str ")") ++ when (many f) (str "[i]") ++ x29 :: []) ++ return_err)).
  { unfold write_template, nl. cbn [repeat app]. rewrite <- ?app_assoc. repeat (f_equal; rewrite <- ?app_comm_cons, <- ?app_assoc). }
  rewrite EQ. apply spells_checked.
  eapply emits_eq.
  - refine (emits_app (x09 :: str "if err = e.Write") _ _ _ _ _ _ _ _); [known|].
    eapply (method_emits (str "Write")); [reflexivity|].
    refine (emits_app [x28] _ _ _ _ _ _ _ _); [known|].
    apply place_emits; [exact W|reflexivity|known].
  - cbn [set_toks lhs_toks etoks]. unfold set_toks, field_place. cbn [lhs_toks etoks app]. reflexivity.
Qed.
Ltac texts := unfold nl; cbn [repeat when app]; rewrite <- ?app_assoc; repeat (f_equal; rewrite <- ?app_comm_cons, <- ?app_assoc).
Lemma write_other_spells name f T : is_word name ->
  spells (write_other_template name f) (stoks (go_code name T (SMarshal (field_place f (f_ptr f && many f))))).
Proof.
  intros W. cbn [go_code].
  assert (EQ : write_other_template name f = x0a :: ((x09 :: str "if err = " ++ when (f_ptr f && many f) (str "(*") ++ str "v." ++ name
     ++ when (f_ptr f && many f) (str ")") ++ when (many f) (str "[i]") ++ x2e :: str "MarshalABI(e)") ++ return_err))
    by (unfold write_other_template; texts).
  rewrite EQ. apply spells_checked. eapply emits_eq.
  - refine (emits_app (x09 :: str "if err = ") _ _ _ _ _ _ _ _); [known|].
    apply place_emits; [exact W|reflexivity|known].
  - unfold set_toks, field_place. cbn [lhs_toks etoks app]. rewrite <- app_assoc. reflexivity.
Qed.
Lemma read_other_spells name f T : is_word name ->
  spells (read_other_template name f) (stoks (go_code name T (SUnmarshal (field_place f (f_ptr f && many f))))).
Proof.
  intros W. cbn [go_code].
  assert (EQ : read_other_template name f = x0a :: ((x09 :: str "if err = " ++ when (f_ptr f && many f) (str "(*") ++ str "v." ++ name
     ++ when (f_ptr f && many f) (str ")") ++ when (many f) (str "[i]") ++ x2e :: str "UnmarshalABI(d)") ++ return_err))
    by (unfold read_other_template; texts).
  rewrite EQ. apply spells_checked. eapply emits_eq.
  - refine (emits_app (x09 :: str "if err = ") _ _ _ _ _ _ _ _); [known|].
    apply place_emits; [exact W|reflexivity|known].
  - unfold set_toks, field_place. cbn [lhs_toks etoks app]. rewrite <- app_assoc. reflexivity.
Qed.
Lemma read_spells name f k T : is_word name -> f_ptr f = false ->
  spells (read_template name f k) (stoks (go_code name T (SRead k (field_place f false)))).
Proof.
  intros W P. cbn [go_code].
  assert (EQ : read_template name f k = x0a :: ((x09 :: str "if " ++ when false (str "(*") ++ str "v." ++ name ++ when false (str ")") ++ when (many f) (str "[i]")
     ++ x2c :: str " err = d.Read" ++ method_name k ++ x28 :: str ")") ++ return_err)).
  { unfold read_template. rewrite P. cbn [when app]. rewrite app_nil_r. texts. }
  rewrite EQ. apply spells_checked. eapply emits_eq.
  - refine (emits_app (x09 :: str "if ") _ _ _ _ _ _ _ _); [known|].
    apply place_emits; [exact W|reflexivity|].
    refine (emits_app (x2c :: str " err = d.Read") _ _ _ _ _ _ _ _); [known|].
    eapply (method_emits (str "Read")); [reflexivity|known].
  - unfold set_toks, field_place. cbn [lhs_toks etoks app]. rewrite <- app_assoc. reflexivity.
Qed.
(** The types with methods of their own on Encoder and Decoder. *)
Lemma method_of_text T k : method_of T = Some k -> spells (nl 1 ++ str "var tmp " ++ T) (stoks (GVar (str "tmp") (type_tokens T))).
Proof.
  unfold method_of, same_text.
  repeat match goal with |- context [byte_list_dec T ?t] => destruct (byte_list_dec T t) as [-> |_];
    [intros _; refine (spells_line _ _ _); intros o; vm_compute; reflexivity|] end.
  discriminate.
Qed.
Lemma read_tmp_spells name f k : is_word name -> f_ptr f = true -> f_method f = Some k -> f_method f = method_of (f_type f) ->
  spells (read_template name f k) (stoks (go_code name (type_tokens (f_type f)) (SReadTmp k (field_place f false)))).
Proof.
  intros W P M MT. cbn [go_code stoks].
  assert (EQ : read_template name f k = (nl 1 ++ str "var tmp " ++ f_type f)
     ++ (x0a :: (x09 :: str "if tmp, err = d.Read" ++ method_name k ++ x28 :: str ")") ++ return_err)
     ++ (x0a :: x09 :: when false (str "(*") ++ str "v." ++ name ++ when false (str ")") ++ when (many f) (str "[i]") ++ x20 :: str "= &tmp")).
  { unfold read_template. rewrite P. texts. }
  rewrite EQ. apply spells_app; [|apply spells_app].
  - rewrite MT in M. exact (method_of_text _ _ M).
  - apply spells_checked. eapply emits_eq.
    + refine (emits_app (x09 :: str "if tmp, err = d.Read") _ _ _ _ _ _ _ _); [known|].
      eapply (method_emits (str "Read")); [reflexivity|known].
    + reflexivity.
  - eapply spells_eq.
    + eapply line_word.
      * refine (emits_app [x09] _ _ _ _ _ _ _ _); [known|]. apply place_emits; [exact W|reflexivity|known].
      * reflexivity.
    + unfold set_toks, field_place. cbn [lhs_toks etoks app]. rewrite <- !app_assoc. reflexivity.
Qed.

(** Texts of types. *)
Definition type_char (c : byte) : bool := word_char c || one_of [c] ["."; "["; "]"; "*"]%string.
Definition calm (m : mode) : bool := match m with Idle | InWord _ | InSign _ => true | _ => false end.
Lemma start_frame o1 o c : Byte.eqb c x0a = false -> start (o1 ++ o) c = (fst (start o1 c) ++ o, snd (start o1 c)).
Proof. intros N. unfold start. rewrite N. repeat match goal with |- context [if ?b then _ else _] => destruct b end; reflexivity. Qed.
Lemma step_frame o1 o m c : Byte.eqb c x0a = false -> step (o1 ++ o, m) c = (fst (step (o1, m) c) ++ o, snd (step (o1, m) c)).
Proof.
  intros N. destruct m; cbn [step]; rewrite ?N; rewrite ?app_comm_cons; rewrite ?start_frame by exact N;
    repeat match goal with |- context [if ?b then _ else _] => destruct b end; reflexivity.
Qed.
Lemma type_not_line c : type_char c = true -> Byte.eqb c x0a = false.
Proof. destruct c; try reflexivity; discriminate. Qed.
Lemma start_calm o c : type_char c = true -> calm (snd (start o c)) = true.
Proof.
  intros H. unfold start. destruct (word_char c) eqn:W; [reflexivity|]. unfold type_char in H. rewrite W in H. cbn [orb] in H.
  destruct c; try discriminate H; reflexivity.
Qed.
Lemma step_calm o m c : type_char c = true -> calm m = true -> calm (snd (step (o, m) c)) = true.
Proof.
  intros H M. destruct m; try discriminate M; cbn [step].
  - now apply start_calm.
  - destruct (word_char c); [reflexivity|now apply start_calm].
  - destruct (double _ c); [reflexivity|now apply start_calm].
Qed.
Lemma scan_frame T o1 o m : forallb type_char T = true -> calm m = true ->
  scan T (o1 ++ o, m) = (fst (scan T (o1, m)) ++ o, snd (scan T (o1, m))) /\ calm (snd (scan T (o1, m))) = true.
Proof.
  revert o1 m. induction T as [|c T IH]; intros o1 m H M; [now split|]. cbn [forallb] in H. apply andb_prop in H as [C H].
  rewrite !scan_cons, step_frame by now apply type_not_line. pose proof (step_calm o1 m c C M) as M'.
  destruct (step (o1, m) c) as [o2 m2]. exact (IH o2 m2 H M').
Qed.
Lemma type_emits T rest ts m : forallb type_char T = true -> emits (x2c :: rest) Idle ts m -> emits (T ++ x2c :: rest) Idle (type_tokens T ++ ts) m.
Proof.
  intros H R o. rewrite scan_app. change (o, Idle) with ([] ++ o, Idle). destruct (scan_frame T [] o Idle H eq_refl) as [-> M].
  unfold type_tokens. destruct (scan T ([], Idle)) as [o1 m1]. cbn [fst snd] in *.
  rewrite rev_app_distr, <- app_assoc.
  destruct m1; try discriminate M.
  - rewrite R, rev_involutive. reflexivity.
  - rewrite rev_involutive. rewrite scan_cons. specialize (R (Word (rev acc) :: o1 ++ o)). rewrite scan_cons in R. exact R.
  - rewrite rev_involutive. rewrite scan_cons. specialize (R (Sign [c] :: o1 ++ o)). rewrite scan_cons in R. cbn [step] in *.
    assert (D : double c x2c = false) by (destruct c; reflexivity). rewrite D. exact R.
Qed.

(** The templates around the code of an element. *)
Lemma for_toks x n a : stoks (GFor x n a) =
  ([word "for"; Word x; sign ":="; word "0"; sign ";"; Word x; sign "<"] ++ etoks n ++ [sign ";"; Word x; sign "++"]) ++ sign "{" :: stoks a ++ [sign "}"; sign ";"].
Proof. cbn [stoks]. rewrite <- !app_assoc. reflexivity. Qed.
Lemma seq_toks a b : stoks (GSeq a b) = stoks a ++ stoks b.
Proof. reflexivity. Qed.
Lemma set_toks_eq l r : stoks (GSet l r) = set_toks l r ++ [sign ";"].
Proof. reflexivity. Qed.
Lemma write_slice_spells name f T b code : is_word name -> spells code (stoks (go_code name T b)) ->
  spells (write_slice_template name f code) (stoks (go_code name T (SWriteSlice {| star := f_ptr f; index := false |} b))).
Proof.
  intros W C. cbn [go_code]. rewrite !seq_toks, set_toks_eq, for_toks.
  assert (EQ : write_slice_template name f code =
     (x0a :: (x09 :: str "length = len(") ++ when (f_ptr f) (str "*") ++ str "v." ++ name ++ x29 :: [])
     ++ (x0a :: str "    if err = e.WriteVaruint(uint(length))" ++ return_err)
     ++ (x0a :: (x09 :: str "for i := 0; i < length; i++ {") ++ code ++ nl 1 ++ str "}")).
  { unfold write_slice_template, nl. cbn [repeat app]. rewrite <- ?app_assoc. repeat (f_equal; rewrite <- ?app_comm_cons, <- ?app_assoc). }
  rewrite EQ. apply spells_app; [|apply spells_app].
  - apply line_idle.
    + destruct (f_ptr f); cbn [when app star].
      * eapply emits_eq.
        -- eapply emits_app; [known|]. eapply emits_app; [known|]. eapply emits_app; [known|]. eapply emits_app; [exact (emits_word name W)|].
           refine (emits_flush x29 [] _ _ _ _ eq_refl (rev_involutive name) _). known.
        -- reflexivity.
      * eapply emits_eq.
        -- eapply emits_app; [known|]. eapply emits_app; [known|]. eapply emits_app; [exact (emits_word name W)|].
           refine (emits_flush x29 [] _ _ _ _ eq_refl (rev_involutive name) _). known.
        -- reflexivity.
    + exists (removelast (set_toks [var "length"] (ECall1 (var "len") (if f_ptr f then EStar (fld name) else fld name)))), (sign ")").
      split; [destruct (f_ptr f); reflexivity|reflexivity].
  - apply spells_checked. known.
  - apply block; [known|exact C].
Qed.

Lemma read_slice_spells name f b code : is_word name -> forallb type_char (f_type f) = true ->
  spells code (stoks (go_code name (type_tokens (f_type f)) b)) ->
  spells (read_slice_template name f code) (stoks (go_code name (type_tokens (f_type f)) (SReadSlice b))).
Proof.
  intros W TC C. cbn [go_code]. rewrite !seq_toks, set_toks_eq, for_toks.
  assert (EQ : read_slice_template name f code =
     (x0a :: (x09 :: str "if length, err = d.ReadVaruint()") ++ return_err)
     ++ (x0a :: (x09 :: str "v.") ++ name ++ (x20 :: str "= make([]") ++ f_type f ++ x2c :: str " length)")
     ++ (x0a :: (x09 :: str "for i := 0; i < int(length); i++ {") ++ code ++ nl 1 ++ str "}")).
  { unfold read_slice_template, nl. cbn [repeat app]. rewrite <- ?app_assoc. repeat (f_equal; rewrite <- ?app_comm_cons, <- ?app_assoc). }
  rewrite EQ. apply spells_app; [|apply spells_app].
  - apply spells_checked. known.
  - apply line_idle.
    + eapply emits_eq.
      * eapply emits_app; [known|]. eapply emits_app; [exact (emits_word name W)|].
        eapply emits_app; [refine (emits_flush x20 _ _ _ _ _ eq_refl (rev_involutive name) _); known|].
        apply type_emits; [exact TC|known].
      * reflexivity.
    + exists ([word "v"; sign "."; Word name; sign "="; word "make"; sign "("; sign "["; sign "]"] ++ type_tokens (f_type f) ++ [sign ","; word "length"]), (sign ")").
      split; [|reflexivity]. rewrite <- !app_assoc. reflexivity.
  - apply block; [known|exact C].
Qed.
Lemma digits_word n : 0 <= n -> is_word (FormatUint n).
Proof.
  intros N. split; [now apply FormatUint_ne|]. pose proof (FormatUint_digits n N) as D. induction D as [|c s H D IH]; [reflexivity|].
  cbn [forallb]. rewrite IH, andb_true_r. unfold digit in H. unfold word_char. destruct H as [A B].
  apply Z.leb_le in A, B. rewrite A, B. now rewrite !orb_true_r.
Qed.
Lemma array_spells name f T b code : 0 <= f_len f -> spells code (stoks (go_code name T b)) ->
  spells (array_template f code) (stoks (GFor (str "i") (ENum (f_len f)) (go_code name T b))).
Proof.
  intros N C. rewrite for_toks.
  assert (EQ : array_template f code = x0a :: ((x09 :: str "for i := 0; i < ") ++ FormatUint (f_len f) ++ x3b :: str " i++ {") ++ code ++ nl 1 ++ str "}").
  { unfold array_template, FormatInt, nl. replace (f_len f <? 0) with false by (symmetry; apply Z.ltb_ge; exact N).
    cbn [repeat app]. rewrite <- ?app_assoc. repeat (f_equal; rewrite <- ?app_comm_cons, <- ?app_assoc). }
  rewrite EQ. apply block; [|exact C]. eapply emits_eq.
  - eapply emits_app; [known|]. eapply emits_app; [exact (emits_word _ (digits_word _ N))|].
    refine (emits_flush x3b _ _ _ _ _ eq_refl (rev_involutive _) _). known.
  - reflexivity.
Qed.
Lemma emits_unquote acc x : rev acc = x -> emits (x22 :: str ")" ++ nl 1 ++ str "}") (InQuote acc) [Quote x; sign ")"; sign ";"; sign "}"] Idle.
Proof. intros <- o. reflexivity. Qed.
Lemma write_optional_spells name f T b code : is_word name -> spells code (stoks (go_code name T b)) ->
  spells (write_optional_template name f code) (stoks (go_code name T (SWriteOptional (f_optional f) b))).
Proof.
  intros W C. cbn [go_code]. rewrite !seq_toks, set_toks_eq.
  assert (H1 : spells (x0a :: (x09 :: str "exists = v.") ++ name ++ x20 :: str "!= nil") (set_toks [var "exists"] (ENe (fld name) (var "nil")) ++ [sign ";"])).
  { eapply spells_eq.
    - eapply line_word.
      + eapply emits_app; [known|]. eapply emits_app; [exact (emits_word name W)|].
        refine (emits_flush x20 _ _ _ _ _ eq_refl (rev_involutive name) _). known.
      + reflexivity.
    - reflexivity. }
  destruct (f_optional f) eqn:O.
  - rewrite seq_toks.
    assert (EQ : write_optional_template name f code = (x0a :: (x09 :: str "exists = v.") ++ name ++ x20 :: str "!= nil")
       ++ (x0a :: (x09 :: str "if err = e.WriteBool(exists)") ++ return_err)
       ++ (x0a :: (x09 :: str "if exists {") ++ code ++ nl 1 ++ str "}")).
    { unfold write_optional_template, nl. rewrite O. cbn [repeat app when negb]. rewrite ?app_nil_r. rewrite <- ?app_assoc. repeat (f_equal; rewrite <- ?app_comm_cons, <- ?app_assoc). }
    rewrite EQ. apply spells_app; [exact H1|]. apply spells_app.
    + apply spells_checked. known.
    + exact (block (x09 :: str "if exists {") [word "if"; word "exists"] _ _ 1 ltac:(known) C).
  - assert (EQ : write_optional_template name f code = (x0a :: (x09 :: str "exists = v.") ++ name ++ x20 :: str "!= nil")
       ++ (x0a :: (x09 :: str "if exists {") ++ code ++ nl 1 ++ (str "} else {" ++ nl 2 ++ str "return errors.New(" ++ x22 :: str "encountered nil for non-optional field: ")
             ++ name ++ (x22 :: str ")" ++ nl 1 ++ str "}"))).
    { unfold write_optional_template, nl. rewrite O. cbn [repeat app when negb]. rewrite <- ?app_assoc. repeat (f_equal; rewrite <- ?app_comm_cons, <- ?app_assoc). }
    rewrite EQ. apply spells_app; [exact H1|]. cbn [stoks].
    eapply spells_eq.
    + refine (block_else (x09 :: str "if exists {") [word "if"; word "exists"] _ _ 1 _
        [sign "}"; word "else"; sign "{"; word "return"; word "errors"; sign "."; word "New"; sign "(";
          Quote (str "encountered nil for non-optional field: " ++ name); sign ")"; sign ";"] _ C _); [known|].
      eapply emits_eq.
      * eapply emits_app; [known|]. eapply emits_app; [apply emits_quoted, W|].
        apply (emits_unquote _ (str "encountered nil for non-optional field: " ++ name)). now rewrite rev_app_distr, rev_involutive.
      * reflexivity.
    + reflexivity.
Qed.
Lemma read_optional_spells name T b code : spells code (stoks (go_code name T b)) ->
  spells (read_optional_template code) (stoks (go_code name T (SReadOptional b))).
Proof.
  intros C. cbn [go_code]. rewrite seq_toks.
  assert (EQ : read_optional_template code = (x0a :: (x09 :: str "if exists, err = d.ReadBool()") ++ return_err)
       ++ (x0a :: (x09 :: str "if exists {") ++ code ++ nl 1 ++ str "}")).
  { unfold read_optional_template, nl. cbn [repeat app]. rewrite <- ?app_assoc. repeat (f_equal; rewrite <- ?app_comm_cons, <- ?app_assoc). }
  rewrite EQ. apply spells_app.
  - apply spells_checked. known.
  - exact (block (x09 :: str "if exists {") [word "if"; word "exists"] _ _ 1 ltac:(known) C).
Qed.

(** ** The whole text *)
Definition good_field (f : field) : Prop :=
  f_method f = method_of (f_type f) /\ forallb type_char (f_type f) = true /\ 0 <= f_len f.
Lemma when_indent (b : bool) s ts s' ts' : spells s ts -> (spells (indent s) ts -> spells s' ts') -> spells (if b then s' else s) (if b then ts' else ts).
Proof. intros H G. destruct b; [apply G; now apply spells_indent|exact H]. Qed.
Lemma write_code_spells name f T : is_word name -> good_field f -> spells (write_code name f) (stoks (go_code name T (gen_write f))).
Proof.
  intros W (M & TC & N). unfold write_code, gen_write. cbv zeta.
  assert (B : forall c s, spells c (stoks (go_code name T s)) ->
    spells (if f_slice f then write_slice_template name f (indent c) else c) (stoks (go_code name T (if f_slice f then SWriteSlice {| star := f_ptr f; index := false |} s else s)))).
  { intros c s H. destruct (f_slice f); [|exact H]. apply write_slice_spells; [exact W|]. now apply spells_indent. }
  assert (A : forall c s, spells c (stoks (go_code name T s)) ->
    spells (if f_array f then array_template f (indent c) else c) (stoks (go_code name T (if f_array f then SWriteArray (f_len f) s else s)))).
  { intros c s H. destruct (f_array f); [|exact H]. cbn [go_code]. apply array_spells; [exact N|]. now apply spells_indent. }
  assert (O : forall c s, spells c (stoks (go_code name T s)) ->
    spells (if f_optional f || f_ptr f then write_optional_template name f (indent c) else c)
      (stoks (go_code name T (if f_optional f || f_ptr f then SWriteOptional (f_optional f) s else s)))).
  { intros c s H. destruct (f_optional f || f_ptr f); [|exact H]. apply write_optional_spells; [exact W|]. now apply spells_indent. }
  apply O, A, B. destruct (f_method f) as [k|].
  - exact (write_spells name f k T W).
  - exact (write_other_spells name f T W).
Qed.
Lemma read_code_spells name f : is_word name -> good_field f -> spells (read_code name f) (stoks (go_code name (type_tokens (f_type f)) (gen_read f))).
Proof.
  intros W (M & TC & N). unfold read_code, gen_read. cbv zeta. set (T := type_tokens (f_type f)).
  assert (B : forall c s, spells c (stoks (go_code name T s)) ->
    spells (if f_slice f then read_slice_template name f (indent c) else c) (stoks (go_code name T (if f_slice f then SReadSlice s else s)))).
  { intros c s H. destruct (f_slice f); [|exact H]. apply read_slice_spells; [exact W|exact TC|]. now apply spells_indent. }
  assert (A : forall c s, spells c (stoks (go_code name T s)) ->
    spells (if f_array f then array_template f (indent c) else c) (stoks (go_code name T (if f_array f then SReadArray (f_len f) s else s)))).
  { intros c s H. destruct (f_array f); [|exact H]. cbn [go_code]. apply array_spells; [exact N|]. now apply spells_indent. }
  assert (O : forall c s, spells c (stoks (go_code name T s)) ->
    spells (if f_optional f then read_optional_template (indent c) else c)
      (stoks (go_code name T (if f_optional f then SReadOptional s else s)))).
  { intros c s H. destruct (f_optional f); [|exact H]. apply read_optional_spells. now apply spells_indent. }
  apply O, A, B. destruct (f_method f) as [k|] eqn:K.
  - destruct (f_ptr f) eqn:P.
    + apply read_tmp_spells; try assumption. now rewrite K.
    + now apply read_spells.
  - exact (read_other_spells name f T W).
Qed.
Lemma sequence_spells (code : list byte -> field -> list byte) (prog : list byte -> field -> gstmt) fs :
  Forall (fun '(name, f) => spells (code name f) (stoks (prog name f))) fs ->
  spells (concat (map (fun '(name, f) => code name f) fs)) (stoks (sequence (map (fun '(name, f) => prog name f) fs))).
Proof. induction 1 as [|[name f] fs H _ IH]; [exact spells_nil|]. cbn [map concat sequence stoks]. now apply spells_app. Qed.
Lemma body_spells uses_exists uses_length (lt : string) code s : is_word (str lt) -> ends_statement (word lt) = true -> spells code (stoks s) ->
  spells (nl 1 ++ str "var err error" ++ when uses_exists (nl 1 ++ str "var exists bool") ++ when uses_length (nl 1 ++ str "var length " ++ str lt)
          ++ code ++ nl 1 ++ str "return err") (stoks (body uses_exists uses_length lt s)).
Proof.
  intros W L C. unfold body. rewrite !seq_toks. rewrite app_assoc.
  apply spells_app; [|apply spells_app; [|apply spells_app; [|apply spells_app; [exact C|]]]].
  - apply (line_word (x09 :: str "var err error") [word "var"; word "err"] (rev (str "error"))); [known|reflexivity].
  - destruct uses_exists; [|exact spells_nil].
    apply (line_word (x09 :: str "var exists bool") [word "var"; word "exists"] (rev (str "bool"))); [known|reflexivity].
  - destruct uses_length; [|exact spells_nil]. cbn [when stoks app]. eapply spells_eq.
    + refine (line_word (x09 :: str "var length " ++ str lt) _ (rev (str lt)) _ _); [|now rewrite rev_involutive].
      refine (emits_app (x09 :: str "var length ") _ _ _ _ _ _ _ (emits_word _ W)). known.
    + now rewrite rev_involutive.
  - apply (line_word (x09 :: str "return err") [word "return"] (rev (str "err"))); [known|reflexivity].
Qed.
Lemma line_twice st o : step st x0a = (o, Idle) -> step (o, Idle) x0a = (o, Idle).
Proof.
  assert (S : forall out, start out x0a = (o, Idle) -> step (o, Idle) x0a = (o, Idle)).
  { intros out H. unfold start in H. change (word_char x0a) with false in H. change (Byte.eqb x0a x22) with false in H.
    change (Byte.eqb x0a x0a) with true in H. cbv iota in H. injection H as H.
    destruct out as [|t out]; [subst o; reflexivity|]. destruct (ends_statement t) eqn:T; subst o; [reflexivity|].
    cbn [step]. unfold start. change (word_char x0a) with false. change (Byte.eqb x0a x22) with false.
    change (Byte.eqb x0a x0a) with true. cbv iota. now rewrite T. }
  destruct st as [out m]. destruct m; try discriminate; cbn [step].
  - apply S.
  - change (word_char x0a) with false. cbv iota. apply S.
  - assert (D : double c x0a = false) by (destruct c; reflexivity). rewrite D. apply S.
Qed.
Lemma spells_blank : spells (nl 0) [].
Proof. intros st o H. unfold nl. cbn [repeat]. rewrite scan_cons, H. cbn [scan fold_left rev app]. exact (line_twice st o H). Qed.
Lemma func_toks f : ftoks f =
  ([word "func"; sign "("; Word (g_recv f)] ++ (if g_ptr f then [sign "*"] else []) ++ [Word (g_type f); sign ")"; Word (g_name f);
   sign "("; Word (g_param f); sign "*"; word "abi"; sign "."; Word (g_ptype f); sign ")"; word "error"])
  ++ sign "{" :: stoks (g_body f) ++ [sign "}"; sign ";"].
Proof. unfold ftoks. rewrite <- !app_assoc. reflexivity. Qed.

Lemma marshal_spells struct fs : is_word struct -> Forall (fun '(name, f) => is_word name /\ good_field f) fs ->
  spells (marshal_template struct (existsb (fun '(_, f) => f_optional f || f_ptr f) fs) (existsb (fun '(_, f) => f_slice f || f_array f) fs)
    (concat (map (fun '(name, f) => write_code name f) fs))) (ftoks (marshal_func struct fs)).
Proof.
  intros S F. rewrite func_toks.
  assert (C : spells (concat (map (fun '(name, f) => write_code name f) fs))
    (stoks (sequence (map (fun '(name, f) => go_code name (type_tokens (f_type f)) (gen_write f)) fs)))).
  { apply (sequence_spells write_code (fun name f => go_code name (type_tokens (f_type f)) (gen_write f))).
    induction F as [|[name f] fs [W G] _ IH]; constructor; [now apply write_code_spells|exact IH]. }
  pose proof (body_spells (existsb (fun '(_, f) => f_optional f || f_ptr f) fs) (existsb (fun '(_, f) => f_slice f || f_array f) fs) "int" _ _
    ltac:(split; [discriminate|reflexivity]) eq_refl C) as B.
  eapply spells_eq.
  - match goal with |- spells ?t _ => assert (EQ : t =
      (x0a :: (str "func (v " ++ struct ++ x29 :: str " MarshalABI(e *abi.Encoder) error {") ++
       (nl 1 ++ str "var err error" ++ when (existsb (fun '(_, f) => f_optional f || f_ptr f) fs) (nl 1 ++ str "var exists bool")
        ++ when (existsb (fun '(_, f) => f_slice f || f_array f) fs) (nl 1 ++ str "var length " ++ str "int")
        ++ concat (map (fun '(name, f) => write_code name f) fs) ++ nl 1 ++ str "return err") ++ nl 0 ++ str "}") ++ nl 0) end.
    { unfold marshal_template, nl. cbn [repeat app]. rewrite <- ?app_assoc. repeat (f_equal; rewrite <- ?app_comm_cons, <- ?app_assoc). }
    rewrite EQ. apply spells_app; [|exact spells_blank]. apply block; [|exact B].
    eapply emits_eq.
    + eapply emits_app; [known|]. eapply emits_app; [exact (emits_word _ S)|].
      refine (emits_flush x29 _ _ _ _ _ eq_refl (rev_involutive _) _). known.
    + instantiate (1 := [word "func"; sign "("; word "v"; Word struct; sign ")"; word "MarshalABI"; sign "("; word "e"; sign "*"; word "abi"; sign "."; word "Encoder"; sign ")"; word "error"]).
      reflexivity.
  - rewrite app_nil_r. reflexivity.
Qed.
Lemma unmarshal_spells struct fs : is_word struct -> Forall (fun '(name, f) => is_word name /\ good_field f) fs ->
  spells (unmarshal_template struct (existsb (fun '(_, f) => f_optional f) fs) (existsb (fun '(_, f) => f_slice f) fs)
    (concat (map (fun '(name, f) => read_code name f) fs))) (ftoks (unmarshal_func struct fs)).
Proof.
  intros S F. rewrite func_toks.
  assert (C : spells (concat (map (fun '(name, f) => read_code name f) fs))
    (stoks (sequence (map (fun '(name, f) => go_code name (type_tokens (f_type f)) (gen_read f)) fs)))).
  { apply (sequence_spells read_code (fun name f => go_code name (type_tokens (f_type f)) (gen_read f))).
    induction F as [|[name f] fs [W G] _ IH]; constructor; [now apply read_code_spells|exact IH]. }
  pose proof (body_spells (existsb (fun '(_, f) => f_optional f) fs) (existsb (fun '(_, f) => f_slice f) fs) "uint" _ _
    ltac:(split; [discriminate|reflexivity]) eq_refl C) as B.
  eapply spells_eq.
  - match goal with |- spells ?t _ => assert (EQ : t =
      (x0a :: (str "func (v *" ++ struct ++ x29 :: str " UnmarshalABI(d *abi.Decoder) error {") ++
       (nl 1 ++ str "var err error" ++ when (existsb (fun '(_, f) => f_optional f) fs) (nl 1 ++ str "var exists bool")
        ++ when (existsb (fun '(_, f) => f_slice f) fs) (nl 1 ++ str "var length " ++ str "uint")
        ++ concat (map (fun '(name, f) => read_code name f) fs) ++ nl 1 ++ str "return err") ++ nl 0 ++ str "}") ++ nl 0) end.
    { unfold unmarshal_template, nl. cbn [repeat app]. rewrite <- ?app_assoc. repeat (f_equal; rewrite <- ?app_comm_cons, <- ?app_assoc). }
    rewrite EQ. apply spells_app; [|exact spells_blank]. apply block; [|exact B].
    eapply emits_eq.
    + eapply emits_app; [known|]. eapply emits_app; [exact (emits_sign_word _ _ S)|].
      refine (emits_flush x29 _ _ _ _ _ eq_refl (rev_involutive _) _). known.
    + instantiate (1 := [word "func"; sign "("; word "v"; sign "*"; Word struct; sign ")"; word "UnmarshalABI"; sign "("; word "d"; sign "*"; word "abi"; sign "."; word "Decoder"; sign ")"; word "error"]).
      reflexivity.
  - rewrite app_nil_r. reflexivity.
Qed.
Theorem source_spells struct fs : is_word struct -> Forall (fun '(name, f) => is_word name /\ good_field f) fs ->
  tokens_of (source struct fs) = Some (ftoks (marshal_func struct fs) ++ ftoks (unmarshal_func struct fs)).
Proof.
  intros S F. unfold tokens_of, source.
  pose proof (spells_app _ _ _ _ (marshal_spells struct fs S F) (spells_app _ _ _ _ spells_blank (unmarshal_spells struct fs S F))) as H.
  rewrite (H ([], Idle) [] eq_refl). now rewrite app_nil_r, rev_involutive.
Qed.
