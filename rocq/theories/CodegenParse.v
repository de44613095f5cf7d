(** The parser reads the functions of CodegenProgram.v. *)
From Verif Require Import Base Prog AbiPrim Chain Values Leaf GoStd Numbers SpecText Reflect Codegen GoLang GoCheck GoParse GoParseProofs GoNorm.
From Verif Require Import CodegenSource CodegenProgram CodegenRun.

(** ** Texts of types hold no commas and no semicolons *)
Definition plain_token (t : token) : Prop := is "," t = false /\ is ";" t = false.
Definition plain_mode (m : mode) : Prop := match m with Idle | InWord _ => True | InSign c => c = x2a | _ => False end.
Lemma start_plain o c : type_char c = true -> Forall plain_token o -> Forall plain_token (fst (start o c)) /\ plain_mode (snd (start o c)).
Proof.
  intros H O. unfold start. destruct (word_char c) eqn:W; [now split|]. unfold type_char in H. rewrite W in H. cbn [orb] in H.
  destruct c; try discriminate H; split; try reflexivity; try exact O; (constructor; [split; reflexivity|exact O]).
Qed.
Lemma step_plain o m c : type_char c = true -> Forall plain_token o -> plain_mode m -> Forall plain_token (fst (step (o, m) c)) /\ plain_mode (snd (step (o, m) c)).
Proof.
  intros H O M. destruct m as [|acc|acc|acc|s|]; try contradiction M; cbn [step].
  - now apply start_plain.
  - destruct (word_char c); [now split|]. apply start_plain; [exact H|]. constructor; [split; reflexivity|exact O].
  - cbn in M. subst s. destruct (double x2a c) eqn:D.
    + split; [|exact I]. constructor; [|exact O]. split; unfold is; destruct (token_dec _ _) as [E|]; try reflexivity; discriminate E.
    + apply start_plain; [exact H|]. constructor; [split; reflexivity|exact O].
Qed.
Lemma type_plain T : forallb type_char T = true -> free_of "," (type_tokens T) = true /\ free_of ";" (type_tokens T) = true.
Proof.
  intros H. assert (X : forall o m, Forall plain_token o -> plain_mode m -> Forall plain_token (fst (scan T (o, m))) /\ plain_mode (snd (scan T (o, m)))).
  { induction T as [|c T IH]; intros o m O M; [now split|]. cbn [forallb] in H. apply andb_prop in H as [C H]. rewrite scan_cons.
    destruct (step_plain o m c C O M) as [O' M']. destruct (step (o, m) c) as [o' m']. exact (IH H o' m' O' M'). }
  destruct (X [] Idle (Forall_nil _) I) as [O M]. unfold type_tokens. destruct (scan T ([], Idle)) as [o m]. cbn [fst snd] in O, M.
  assert (Y : forall l, Forall plain_token l -> free_of "," (rev l) = true /\ free_of ";" (rev l) = true).
  { intros l L. apply Forall_rev in L. rewrite Forall_forall in L. split; apply forallb_forall; intros t I; apply negb_true_iff; apply (L t I). }
  destruct m as [|acc|acc|acc|s|]; try contradiction M; try (now apply Y).
  - apply Y. constructor; [split; reflexivity|exact O].
  - cbn in M. subst s. apply Y. constructor; [split; reflexivity|exact O].
Qed.

(** ** The code of a field *)
Fixpoint counts (s : stmt) : Prop :=
  match s with
  | SWriteSlice _ b | SWriteOptional _ b | SReadSlice b | SReadOptional b => counts b
  | SWriteArray n b | SReadArray n b => 0 <= n /\ counts b
  | _ => True
  end.
Lemma a_name_write k : a_name (str "Write" ++ method_name k) = true.
Proof. destruct k; reflexivity. Qed.
Lemma a_name_read k : a_name (str "Read" ++ method_name k) = true.
Proof. destruct k; reflexivity. Qed.
Lemma fld_ready name : a_name name = true -> proper (fld name) = true /\ legible (fld name) = true.
Proof. intros N. split; [reflexivity|]. unfold fld. cbn [legible]. rewrite N. reflexivity. Qed.
Lemma place_ready name p : a_name name = true -> proper (place_expr name p) = true /\ legible (place_expr name p) = true /\ primary (place_expr name p) = true.
Proof.
  intros N. destruct (fld_ready name N) as [P L]. unfold place_expr. destruct (star p), (index p); cbn [proper legible primary unary]; rewrite ?P, ?L; repeat split; reflexivity.
Qed.
Lemma checked_ready l r : ready_set l r = true -> readable (checked l r) = true.
Proof. intros H. unfold checked. cbn [readable]. rewrite H. reflexivity. Qed.
Lemma code_readable name T s : a_name name = true -> free_of "," T = true -> free_of ";" T = true -> counts s -> readable (go_code name T s) = true.
Proof.
  intros N T1 T2. destruct (fld_ready name N) as [FP FL].
  induction s as [k p|p|p b IH|n b IH|o b IH|k p|k p|p|b IH|n b IH|b IH]; intros C; cbn [counts] in C; cbn [go_code];
    try destruct (place_ready name p N) as (PP & PL & PR).
  - apply checked_ready. unfold ready_set, ready. cbn [forallb]. cbn [proper primary legible var]. rewrite a_name_write, PP, PL. reflexivity.
  - apply checked_ready. unfold ready_set, ready. cbn [forallb]. cbn [proper primary legible var]. rewrite PP, PL, PR. reflexivity.
  - cbn [readable]. rewrite (IH C). unfold ready_set, ready. destruct (star p); cbn [forallb proper primary legible unary]; rewrite FP, FL; reflexivity.
  - destruct C as [C1 C2]. cbn [readable]. rewrite (IH C2). unfold ready. cbn [proper legible]. apply Z.leb_le in C1. rewrite C1. reflexivity.
  - cbn [readable]. unfold ready_set, ready. cbn [forallb proper legible]. rewrite FP, FL. destruct o; cbn [readable]; rewrite (IH C); reflexivity.
  - apply checked_ready. unfold ready_set, ready. cbn [forallb]. rewrite PP, PL. cbn [proper primary legible var]. rewrite a_name_read. reflexivity.
  - cbn [readable]. rewrite T2. rewrite checked_ready; [|unfold ready_set, ready; cbn [forallb proper primary legible var]; rewrite a_name_read; reflexivity].
    unfold ready_set, ready. cbn [forallb]. rewrite PP, PL. reflexivity.
  - apply checked_ready. unfold ready_set, ready. cbn [forallb]. cbn [proper primary legible var]. rewrite PP, PL, PR. reflexivity.
  - cbn [readable]. rewrite (IH C). unfold ready_set, ready. cbn [forallb]. rewrite FP, FL. cbn [proper legible]. rewrite T1. reflexivity.
  - destruct C as [C1 C2]. cbn [readable]. rewrite (IH C2). unfold ready. cbn [proper legible]. apply Z.leb_le in C1. rewrite C1. reflexivity.
  - cbn [readable]. rewrite (IH C). reflexivity.
Qed.
Lemma gen_counts f : 0 <= f_len f -> counts (gen_write f) /\ counts (gen_read f).
Proof.
  intros H. unfold gen_write, gen_read. destruct (f_method f), (f_slice f), (f_array f), (f_optional f), (f_ptr f); cbn [orb andb counts]; repeat split; exact H.
Qed.
Lemma sequence_readable l : forallb readable l = true -> readable (sequence l) = true.
Proof. induction l as [|s l IH]; [reflexivity|]. cbn [forallb sequence readable]. intros H. apply andb_prop in H as [A B]. now rewrite A, IH. Qed.
Lemma body_readable ue ul lt code : readable code = true -> (lt = "int" \/ lt = "uint")%string -> readable (body ue ul lt code) = true.
Proof. intros H L. unfold body. destruct L as [-> | ->], ue, ul; cbn [readable]; rewrite H; reflexivity. Qed.
Lemma funcs_readable struct nf : Forall (fun '(name, f) => a_name name = true /\ good_field f) nf ->
  readable (g_body (marshal_func struct nf)) = true /\ readable (g_body (unmarshal_func struct nf)) = true.
Proof.
  intros H. rewrite Forall_forall in H. split; (apply body_readable; [apply sequence_readable, forallb_forall; intros s I; apply in_map_iff in I as ([n f] & <- & I)|auto]);
    destruct (H _ I) as (N & _ & TC & L); destruct (type_plain _ TC) as [T1 T2]; destruct (gen_counts f L) as [W R]; now apply code_readable.
Qed.
Theorem source_parses struct nf : is_word struct -> a_name struct = true ->
  Forall (fun '(name, f) => is_word name /\ a_name name = true /\ good_field f) nf ->
  parse (source struct nf) = Some [norm_func (marshal_func struct nf); norm_func (unmarshal_func struct nf)].
Proof.
  intros WS AS H. assert (H1 : Forall (fun '(name, f) => is_word name /\ good_field f) nf) by (eapply Forall_impl; [|exact H]; intros [n f]; tauto).
  assert (H2 : Forall (fun '(name, f) => a_name name = true /\ good_field f) nf) by (eapply Forall_impl; [|exact H]; intros [n f]; tauto).
  destruct (funcs_readable struct nf H2) as [R1 R2]. apply parse_spelled; [exact (source_spells struct nf WS H1)|exact R1|exact R2|].
  cbn [forallb marshal_func unmarshal_func g_recv g_type g_name g_param g_ptype]. rewrite AS. reflexivity.
Qed.

(** ** Running what was read *)
Lemma esim_trans {A} (p q r : enc A) : esim eq p q -> esim eq q r -> esim eq p r.
Proof.
  intros H. revert r. induction H as [a b ->|m| |bs k k' H IH]; intros r K; try exact K. inversion K; subst. constructor. intros e. apply IH. auto.
Qed.
Lemma esim_sym {A} (p q : enc A) : esim eq p q -> esim eq q p.
Proof. induction 1; constructor; auto. Qed.
Lemma dsim_trans' {A} (p q r : dec A) : dsim eq p q -> dsim eq q r -> dsim eq p r.
Proof.
  intros H. revert r. induction H as [a b ->|m| |n k k' H IH|k k' H IH]; intros r K; try exact K; inversion K; subst; constructor; intros; apply IH; auto.
Qed.
Lemma dsim_sym {A} (p q : dec A) : dsim eq p q -> dsim eq q p.
Proof. induction 1; constructor; auto. Qed.
Lemma ebind_ebind {A B C} (p : enc A) (f : A -> enc B) (g : B -> enc C) : esim eq (ebind (ebind p f) g) (ebind p (fun a => ebind (f a) g)).
Proof. induction p; cbn [ebind]; try constructor; auto. apply esim_refl. Qed.
Lemma dbind_dbind {A B C} (p : dec A) (f : A -> dec B) (g : B -> dec C) : dsim eq (dbind (dbind p f) g) (dbind p (fun a => dbind (f a) g)).
Proof. induction p; cbn [dbind]; try constructor; auto. apply dsim_refl. Qed.
Lemma dbind_ret_eq {A} (p : dec A) : dsim eq (dbind p (fun a => DRet a)) p.
Proof. induction p; cbn [dbind]; constructor; auto. Qed.
Lemma run_marshal_norm mar E f fs l : esim eq (run_marshal mar E (norm_func f) fs l) (run_marshal mar E f fs l).
Proof.
  unfold run_marshal. cbn [norm_func g_param g_recv g_body]. eapply (esim_bind eq); [|intros a ? <-; apply esim_refl].
  apply (exec_norm (M := enc) (fun A a => ERet a) (fun A B => @ebind A B) (fun A => @EPanic A) (call_write mar E) (fun A => @esim A A eq)).
  - intros A p. apply esim_refl.
  - intros A p q r. apply esim_trans.
  - intros A p q. apply esim_sym.
  - intros A B p q g h H G. eapply esim_bind; [exact H|]. intros a ? <-. apply G.
  - intros A B C p g h. apply ebind_ebind.
  - intros A B a g. cbn [ebind]. apply esim_refl.
  - intros A p. apply ebind_ret.
Qed.
Lemma run_unmarshal_norm unm E f fs l : dsim eq (run_unmarshal unm E (norm_func f) fs l) (run_unmarshal unm E f fs l).
Proof.
  unfold run_unmarshal. cbn [norm_func g_param g_recv g_body]. eapply (dsim_bind eq); [|intros a ? <-; apply dsim_refl].
  apply (exec_norm (M := dec) (fun A a => DRet a) (fun A B => @dbind A B) (fun A => @DPanic A) (call_read unm E) (fun A => @dsim A A eq)).
  - intros A p. apply dsim_refl.
  - intros A p q r. apply dsim_trans'.
  - intros A p q. apply dsim_sym.
  - intros A B p q g h H G. eapply dsim_bind; [exact H|]. intros a ? <-. apply G.
  - intros A B C p g h. apply dbind_dbind.
  - intros A B a g. cbn [dbind]. apply dsim_refl.
  - intros A p. apply dbind_ret_eq.
Qed.
