(** The parser of GoParse.v reads back what GoLang.v spells. *)
From Verif Require Import Base Prog AbiPrim Chain Values Leaf GoStd GoStdProofs Numbers SpecText Reflect Codegen GoLang GoParse.

(** ** Expressions *)
Fixpoint esz (a : gexpr) : nat :=
  match a with
  | EVar _ | ENum _ | EStr _ => 1
  | ESel a _ | EStar a | EAddr a | EParen a | ECall0 a | EMake _ a => S (esz a)
  | EIndex a b | ENe a b | ECall1 a b => S (esz a + esz b)
  end%nat.
(** How often p_primary and p_suffix go round. *)
Fixpoint rounds (a : gexpr) : nat :=
  match a with ESel a _ | EIndex a _ | ECall0 a | ECall1 a _ => S (rounds a) | _ => 1 end%nat.
Definition free_of (s : string) (ts : list token) : bool := forallb (fun t => negb (is s t)) ts.
Fixpoint legible (a : gexpr) : bool :=
  match a with
  | EVar x => a_name x && negb (same_text x (str "make"))
  | ENum n => 0 <=? n
  | EStr _ => true
  | ESel a x => legible a && a_name x
  | EStar a | EAddr a | EParen a | ECall0 a => legible a
  | EIndex a b | ENe a b | ECall1 a b => legible a && legible b
  | EMake t n => free_of "," t && legible n
  end.
Definition quiet (ts : list token) : bool :=
  match ts with t :: _ => negb (is "." t) && negb (is "[" t) && negb (is "(" t) | [] => true end.
Definition quiet2 (ts : list token) : bool := quiet ts && match ts with t :: _ => negb (is "!=" t) | [] => true end.

Lemma esz_pos a : (1 <= esz a)%nat.
Proof. destruct a; cbn [esz]; lia. Qed.
Lemma rounds_esz a : (rounds a <= esz a)%nat.
Proof. induction a; cbn [esz rounds]; lia. Qed.
Lemma esz_toks a : (esz a <= length (etoks a))%nat.
Proof. induction a; cbn [esz etoks length]; repeat (rewrite app_length; cbn [length]); lia. Qed.
Lemma hd_toks a : exists t r, etoks a = t :: r /\ is ")" t = false /\ is "}" t = false /\ is "=" t = false /\ is "," t = false.
Proof.
  induction a as [x|n|s|a IH x|a IH|a IH|a IH|a IH b _|a IH b _|a IH|a IH b _|t a IH]; cbn [etoks];
    try (eexists _, _; (split; [reflexivity|]); repeat split; reflexivity);
    destruct IH as (h & r & E & C); exists h; rewrite E; cbn [app]; eexists; (split; [reflexivity|exact C]).
Qed.
Lemma hd_primary a : proper a = true -> primary a = true -> exists t r, etoks a = t :: r /\ is "*" t = false /\ is "&" t = false.
Proof.
  induction a as [x|n|s|a IH x|a IH|a IH|a IH|a IH b _|a IH b _|a IH|a IH b _|t a IH]; cbn [etoks proper primary]; intros PR P; try discriminate P;
    try (eexists _, _; (split; [reflexivity|]); repeat split; reflexivity);
    repeat (apply andb_prop in PR as [PR ?]); destruct IH as (h & r & E & C); try assumption; exists h; rewrite E; cbn [app]; eexists; (split; [reflexivity|exact C]).
Qed.
Lemma decimal_format n : 0 <= n -> decimal (FormatUint n) = true /\ dec_val (FormatUint n) = n /\ same_text (FormatUint n) (str "make") = false.
Proof.
  intros H. destruct (FormatUint_numeral n H) as (NE & D & V & Z). split; [|split; [exact V|]].
  - unfold decimal. destruct (FormatUint n) as [|c r] eqn:F; [congruence|]. apply andb_true_intro. split.
    + apply forallb_forall. intros x I. unfold digits in D. rewrite Forall_forall in D. specialize (D x I). unfold digit in D. unfold dec_digit. lia.
    + destruct (Byte.eqb c x30) eqn:C; [|reflexivity]. apply Byte.byte_dec_bl in C. subst c. now rewrite (Z r eq_refl).
  - unfold same_text. destruct (byte_list_dec _ _) as [E|]; [|reflexivity]. rewrite E in D. unfold digits in D. inversion D as [|? ? X _]. unfold digit in X. cbn in X. lia.
Qed.
Lemma name_not_number x : a_name x = true -> decimal x = false.
Proof.
  unfold a_name, decimal. destruct x as [|c x]; [now rewrite andb_false_r|]. intros H. apply andb_prop in H as [_ H]. cbn [forallb].
  now rewrite (proj1 (negb_true_iff _) H).
Qed.
Lemma until_free s T rest : free_of s T = true -> until s (T ++ sign s :: rest) = Some (T, rest).
Proof.
  induction T as [|t T IH]; intros H; cbn [app until].
  - replace (is s (sign s)) with true; [reflexivity|]. unfold is. now destruct (token_dec _ _).
  - cbn [free_of forallb] in H. apply andb_prop in H as [H1 H2]. apply negb_true_iff in H1. rewrite H1, (IH H2). reflexivity.
Qed.
Definition readsP (a : gexpr) : Prop := forall n rest, (3 * esz a <= n)%nat -> p_primary n (etoks a ++ rest) = p_suffix (n - rounds a) a rest.
Definition readsU (a : gexpr) : Prop := forall n rest, quiet rest = true -> (3 * esz a + 1 <= n)%nat -> p_unary n (etoks a ++ rest) = Some (a, rest).
Definition readsE (a : gexpr) : Prop := forall n rest, quiet2 rest = true -> (3 * esz a + 2 <= n)%nat -> p_expr n (etoks a ++ rest) = Some (a, rest).
Lemma suffix_stop n a rest : quiet rest = true -> (1 <= n)%nat -> p_suffix n a rest = Some (a, rest).
Proof.
  intros Q N. destruct n; [lia|]. cbn [p_suffix]. destruct rest as [|t r]; [reflexivity|]. cbn [quiet] in Q.
  apply andb_prop in Q as [Q Q3]. apply andb_prop in Q as [Q1 Q2]. apply negb_true_iff in Q1, Q2, Q3. now rewrite Q1, Q2, Q3.
Qed.
Lemma P_U a : proper a = true -> primary a = true -> readsP a -> readsU a.
Proof.
  intros PR PM P n rest Q N. destruct (hd_primary a PR PM) as (t & r & E & S1 & S2). destruct n; [lia|]. cbn [p_unary].
  rewrite E. cbn [app]. rewrite S1, S2. change (t :: r ++ rest) with ((t :: r) ++ rest). rewrite <- E.
  rewrite (P n rest ltac:(lia)). apply suffix_stop; [exact Q|]. pose proof (rounds_esz a). pose proof (esz_pos a). lia.
Qed.
Lemma U_E a : readsU a -> readsE a.
Proof.
  intros U n rest Q N. destruct n; [lia|]. cbn [p_expr]. apply andb_prop in Q as [Q1 Q2]. rewrite (U n rest Q1 ltac:(lia)). cbn [bind_opt].
  destruct rest as [|t r]; [reflexivity|]. apply negb_true_iff in Q2. now rewrite Q2.
Qed.
Lemma reads a : proper a = true -> legible a = true -> (primary a = true -> readsP a) /\ (unary a = true -> readsU a) /\ readsE a.
Proof.
  assert (FP : forall a, proper a = true -> primary a = true -> readsP a -> (primary a = true -> readsP a) /\ (unary a = true -> readsU a) /\ readsE a).
  { intros a0 PR PM P. assert (U : readsU a0) by now apply P_U. split; [auto|]. split; [auto|now apply U_E]. }
  assert (FU : forall a, primary a = false -> readsU a -> (primary a = true -> readsP a) /\ (unary a = true -> readsU a) /\ readsE a).
  { intros a0 PM U. split; [congruence|]. split; [auto|now apply U_E]. }
  induction a as [x|n|s|a IH x|a IH|a IH|a IH|a IH b IHb|a IH b IHb|a IH|a IH b IHb|t a IH]; intros PR LG.
  - apply FP; try reflexivity. intros n rest N. destruct n; [cbn in N; lia|]. cbn [etoks app p_primary rounds]. cbn [legible] in LG. apply andb_prop in LG as [L1 L2].
    apply negb_true_iff in L2. rewrite L2, (name_not_number x L1), L1. f_equal. lia.
  - apply FP; try reflexivity. intros m rest N. destruct m; [cbn in N; lia|]. cbn [etoks app p_primary rounds]. cbn [legible] in LG. apply Z.leb_le in LG.
    destruct (decimal_format n LG) as (D & V & M). rewrite M, D, V. f_equal. lia.
  - apply FP; try reflexivity. intros n rest N. destruct n; [cbn in N; lia|]. cbn [etoks app p_primary rounds]. f_equal. lia.
  - pose proof PR as PR'. cbn [proper legible] in PR, LG. apply andb_prop in PR as [P1 P2]. apply andb_prop in LG as [L1 L2].
    destruct (IH P2 L1) as (P & _ & _). apply FP; try assumption; try reflexivity. intros n rest N. cbn [esz] in N. cbn [etoks rounds]. rewrite <- app_assoc. cbn [app].
    rewrite (P P1 n _ ltac:(lia)). pose proof (rounds_esz a). destruct (n - rounds a)%nat as [|k] eqn:K; [lia|]. cbn [p_suffix].
    change (is "." (sign ".")) with true. cbv iota. cbn [some_word]. rewrite L2. f_equal. lia.
  - cbn [proper legible] in PR, LG. apply andb_prop in PR as [P1 P2]. destruct (IH P2 LG) as (_ & U & _). apply FU; [reflexivity|].
    intros n rest Q N. cbn [esz] in N. destruct n; [lia|]. cbn [etoks app p_unary]. change (is "*" (sign "*")) with true. cbv iota. rewrite (U P1 n rest Q ltac:(lia)). reflexivity.
  - cbn [proper legible] in PR, LG. apply andb_prop in PR as [P1 P2]. destruct (IH P2 LG) as (_ & U & _). apply FU; [reflexivity|].
    intros n rest Q N. cbn [esz] in N. destruct n; [lia|]. cbn [etoks app p_unary]. change (is "*" (sign "&")) with false. change (is "&" (sign "&")) with true. cbv iota. rewrite (U P1 n rest Q ltac:(lia)). reflexivity.
  - cbn [proper legible] in PR, LG. destruct (IH PR LG) as (_ & _ & E). apply FP; try assumption; try reflexivity.
    intros n rest N. cbn [esz] in N. destruct n; [lia|]. cbn [etoks app rounds]. rewrite <- app_assoc. cbn [app].
    assert (X : p_primary (S n) (sign "(" :: etoks a ++ sign ")" :: rest) = bind_opt (p_expr n (etoks a ++ sign ")" :: rest)) (fun '(a, ts) => expect ")" ts (fun ts => p_suffix n (EParen a) ts))) by reflexivity.
    rewrite X. rewrite (E n (sign ")" :: rest) eq_refl ltac:(lia)). cbn [bind_opt expect]. change (is ")" (sign ")")) with true. cbv iota. f_equal. lia.
  - pose proof PR as PR'. cbn [proper legible] in PR, LG. apply andb_prop in PR as [PR P3]. apply andb_prop in PR as [P1 P2]. apply andb_prop in LG as [L1 L2].
    destruct (IH P2 L1) as (P & _ & _). destruct (IHb P3 L2) as (_ & _ & E). apply FP; try assumption; try reflexivity. intros n rest N. cbn [esz] in N. cbn [etoks rounds].
    rewrite <- app_assoc. cbn [app]. rewrite <- app_assoc. cbn [app].
    rewrite (P P1 n _ ltac:(lia)). pose proof (rounds_esz a). destruct (n - rounds a)%nat as [|k] eqn:K; [lia|]. cbn [p_suffix].
    change (is "." (sign "[")) with false. change (is "[" (sign "[")) with true. cbv iota. rewrite (E k (sign "]" :: rest) eq_refl ltac:(lia)). cbn [bind_opt expect]. change (is "]" (sign "]")) with true. cbv iota. f_equal. lia.
  - cbn [proper legible] in PR, LG. apply andb_prop in PR as [PR P4]. apply andb_prop in PR as [PR P3]. apply andb_prop in PR as [P1 P2]. apply andb_prop in LG as [L1 L2].
    destruct (IH P3 L1) as (_ & UA & _). destruct (IHb P4 L2) as (_ & UB & _). split; [discriminate|]. split; [discriminate|].
    intros n rest Q N. cbn [esz] in N. destruct n; [lia|]. cbn [etoks p_expr]. rewrite <- app_assoc. cbn [app]. rewrite (UA P1 n (sign "!=" :: etoks b ++ rest) eq_refl ltac:(lia)). cbn [bind_opt].
    change (is "!=" (sign "!=")) with true. cbv iota. apply andb_prop in Q as [Q _]. rewrite (UB P2 n rest Q ltac:(lia)). reflexivity.
  - pose proof PR as PR'. cbn [proper legible] in PR, LG. apply andb_prop in PR as [P1 P2].
    destruct (IH P2 LG) as (P & _ & _). apply FP; try assumption; try reflexivity. intros n rest N. cbn [esz] in N. cbn [etoks rounds]. rewrite <- app_assoc. cbn [app].
    rewrite (P P1 n _ ltac:(lia)). pose proof (rounds_esz a). destruct (n - rounds a)%nat as [|k] eqn:K; [lia|]. cbn [p_suffix].
    change (is "." (sign "(")) with false. change (is "[" (sign "(")) with false. change (is "(" (sign "(")) with true. change (is ")" (sign ")")) with true. cbv iota. f_equal. lia.
  - pose proof PR as PR'. cbn [proper legible] in PR, LG. apply andb_prop in PR as [PR P3]. apply andb_prop in PR as [P1 P2]. apply andb_prop in LG as [L1 L2].
    destruct (IH P2 L1) as (P & _ & _). destruct (IHb P3 L2) as (_ & _ & E). apply FP; try assumption; try reflexivity. intros n rest N. cbn [esz] in N. cbn [etoks rounds].
    rewrite <- app_assoc. cbn [app]. rewrite <- app_assoc. cbn [app].
    rewrite (P P1 n _ ltac:(lia)). pose proof (rounds_esz a). destruct (n - rounds a)%nat as [|k] eqn:K; [lia|]. cbn [p_suffix].
    change (is "." (sign "(")) with false. change (is "[" (sign "(")) with false. change (is "(" (sign "(")) with true. cbv iota.
    destruct (hd_toks b) as (t & r & EB & C & _). specialize (E k (sign ")" :: rest) eq_refl ltac:(lia)). rewrite EB in *. cbn [app] in *. rewrite C, E.
    cbn [bind_opt expect]. change (is ")" (sign ")")) with true. cbv iota. f_equal. lia.
  - cbn [proper legible] in PR, LG. apply andb_prop in LG as [L1 L2]. destruct (IH PR L2) as (_ & _ & E). apply FP; try assumption; try reflexivity.
    intros n rest N. cbn [esz] in N. destruct n; [lia|]. cbn [etoks app rounds]. change (word "make") with (Word (str "make")). cbn [p_primary]. change (same_text (str "make") (str "make")) with true. cbv iota.
    cbn [expect]. change (is "(" (sign "(")) with true. change (is "[" (sign "[")) with true. change (is "]" (sign "]")) with true. cbv iota.
    rewrite <- app_assoc. cbn [app]. rewrite <- app_assoc. cbn [app]. rewrite (until_free "," t _ L1). cbn [bind_opt]. rewrite (E n (sign ")" :: rest) eq_refl ltac:(lia)). cbn [bind_opt expect].
    change (is ")" (sign ")")) with true. cbv iota. f_equal. lia.
Qed.
Lemma read_expr a n rest : proper a = true -> legible a = true -> quiet2 rest = true -> (3 * length (etoks a) + 2 <= n)%nat -> p_expr n (etoks a ++ rest) = Some (a, rest).
Proof. intros P L Q N. destruct (reads a P L) as (_ & _ & E). apply E; [exact Q|]. pose proof (esz_toks a). lia. Qed.

(** ** Statements *)
Definition ready (a : gexpr) : bool := proper a && legible a.
Definition ready_set (l : list gexpr) (r : gexpr) : bool := match l with [] => false | _ => forallb ready l end && ready r.
Fixpoint readable (s : gstmt) : bool :=
  match s with
  | GSkip => true
  | GSeq a b => readable a && readable b
  | GVar x t => a_name x && free_of ";" t
  | GSet l r => ready_set l r
  | GIf init c a => match init with Some (l, r) => ready_set l r | None => true end && ready c && readable a
  | GIfElse c a b => ready c && readable a && readable b
  | GFor x n a => a_name x && ready n && readable a
  | GReturn a => ready a
  end.
Definition is_seq (s : gstmt) : bool := match s with GSeq _ _ => true | _ => false end.
Definition is_skip (s : gstmt) : bool := match s with GSkip => true | _ => false end.
(** A statement behind another one is the whole rest of the block. *)
Fixpoint chain (s : gstmt) : bool :=
  match s with
  | GSkip => false
  | GSeq a b => negb (is_seq a) && chain a && chain b
  | GVar _ _ | GSet _ _ | GReturn _ => true
  | GIf _ _ a | GFor _ _ a => is_skip a || chain a
  | GIfElse _ a b => (is_skip a || chain a) && (is_skip b || chain b)
  end.
Definition rest_toks (l : list gexpr) (r : gexpr) : list token :=
  match l with [] => [] | _ => sign "," :: lhs_toks l end ++ sign "=" :: etoks r.
Lemma set_rest a l r : set_toks (a :: l) r = etoks a ++ rest_toks l r.
Proof. unfold set_toks, rest_toks. destruct l as [|b l]; cbn [lhs_toks]; [reflexivity|]. rewrite <- app_assoc. reflexivity. Qed.
Lemma rest_quiet l r rest : quiet2 (rest_toks l r ++ rest) = true.
Proof. unfold rest_toks. destruct l; reflexivity. Qed.
Lemma read_rest l : forall r n rest, forallb ready l = true -> ready r = true -> quiet2 rest = true -> (3 * length (rest_toks l r) <= n)%nat ->
  p_rest n (rest_toks l r ++ rest) = Some (l, r, rest).
Proof.
  induction l as [|a l IH]; intros r n rest RL RR Q N.
  - apply andb_prop in RR as [R1 R2]. unfold rest_toks in *. cbn [app length] in *. destruct n; [lia|]. cbn [p_rest].
    change (is "=" (sign "=")) with true. cbv iota. rewrite (read_expr r n rest R1 R2 Q ltac:(lia)). reflexivity.
  - cbn [forallb] in RL. apply andb_prop in RL as [RA RL]. apply andb_prop in RA as [R1 R2].
    assert (E : rest_toks (a :: l) r = sign "," :: etoks a ++ rest_toks l r).
    { unfold rest_toks at 1. destruct l as [|b l]; cbn [lhs_toks app]; [reflexivity|]. unfold rest_toks. rewrite <- app_assoc. reflexivity. }
    rewrite E in *. cbn [app length] in *. rewrite app_length in N. destruct n; [lia|]. cbn [p_rest]. change (is "=" (sign ",")) with false. change (is "," (sign ",")) with true. cbv iota.
    rewrite <- app_assoc. rewrite (read_expr a n _ R1 R2 (rest_quiet l r rest) ltac:(lia)). cbn [bind_opt]. rewrite (IH r n rest RL RR Q ltac:(lia)). reflexivity.
Qed.
Definition begins (w : list byte) : bool := one_of w ["var"; "return"; "if"; "for"]%string.
Lemma name_begins x : a_name x = true -> begins x = false.
Proof.
  unfold a_name, begins, keywords, open_keywords, one_of. intros H. apply andb_prop in H as [H _]. apply negb_true_iff in H. rewrite existsb_app in H. cbn [existsb] in *.
  repeat (apply orb_false_elim in H as [?H H]). repeat match goal with K : _ || _ = false |- _ => apply orb_false_elim in K as [?K K] end.
  repeat match goal with K : same_text x _ = false |- _ => rewrite K; clear K end. reflexivity.
Qed.
Lemma number_begins n : 0 <= n -> begins (FormatUint n) = false.
Proof.
  intros H. destruct (FormatUint_numeral n H) as (NE & D & _ & _). unfold begins, one_of. cbn [existsb].
  assert (X : forall c w, zb c > 57 -> same_text (FormatUint n) (c :: w) = false).
  { intros c w C. unfold same_text. destruct (byte_list_dec _ _) as [E|]; [|reflexivity]. rewrite E in D. unfold digits in D. inversion D as [|? ? Y _]. unfold digit in Y. lia. }
  now rewrite (X x76 (str "ar") eq_refl : same_text _ (str "var") = _), (X x72 (str "eturn") eq_refl : same_text _ (str "return") = _), (X x69 (str "f") eq_refl : same_text _ (str "if") = _), (X x66 (str "or") eq_refl : same_text _ (str "for") = _).
Qed.
Lemma hd_begins a : legible a = true -> exists t r, etoks a = t :: r /\ match t with Word w => begins w = false | _ => True end.
Proof.
  induction a as [x|n|s|a IH x|a IH|a IH|a IH|a IH b _|a IH b _|a IH|a IH b _|t a IH]; cbn [etoks legible]; intros L;
    try (eexists _, _; (split; [reflexivity|exact I]));
    try (repeat (apply andb_prop in L as [L ?]); destruct (IH L) as (h & r & E & C); exists h; rewrite E; cbn [app]; eexists; (split; [reflexivity|exact C])).
  - apply andb_prop in L as [L _]. eexists _, _. split; [reflexivity|]. now apply name_begins.
  - apply Z.leb_le in L. eexists _, _. split; [reflexivity|]. now apply number_begins.
  - eexists _, _. split; [reflexivity|reflexivity].
Qed.
Lemma plain_start a n X : legible a = true -> p_stmt (S n) (etoks a ++ X) =
  bind_opt (p_expr n (etoks a ++ X)) (fun '(a, ts) => bind_opt (p_rest n ts) (fun '(l, r, ts) => expect ";" ts (fun ts => Some (GSet (a :: l) r, ts)))).
Proof.
  intros L. destruct (hd_begins a L) as (t & r & E & B). cbn [p_stmt]. rewrite E. cbn [app]. destruct t as [w|s|s]; try reflexivity.
  unfold begins, one_of in B. cbn [existsb] in B. repeat (apply orb_false_elim in B as [?B B]). now rewrite B0, B1, B2, B3.
Qed.
Definition reads_stmt (s : gstmt) : Prop := forall n rest, (3 * length (stoks s) <= n)%nat -> p_stmt n (stoks s ++ rest) = Some (s, rest).
Definition reads_block (s : gstmt) : Prop := forall n rest, (3 * length (stoks s) + 1 <= n)%nat -> p_block n (stoks s ++ sign "}" :: rest) = Some (s, sign "}" :: rest).
Lemma hd_stmt s : readable s = true -> chain s = true -> exists t r, stoks s = t :: r /\ is "}" t = false.
Proof.
  induction s as [|a IHa b _|x t|l r|init c a _|c a _ b _|x m a _|a]; intros R C; cbn [readable chain stoks] in *; try discriminate C; try (eexists _, _; split; reflexivity).
  - apply andb_prop in R as [R _]. apply andb_prop in C as [C _]. apply andb_prop in C as [_ C]. destruct (IHa R C) as (t & r & E & H). rewrite E. cbn [app]. eexists _, _. split; [reflexivity|exact H].
  - destruct l as [|a l]; [discriminate R|]. rewrite set_rest. destruct (hd_toks a) as (t & q & E & _ & H & _). rewrite E. cbn [app]. eexists _, _. split; [reflexivity|exact H].
Qed.
Lemma stmt_block s : readable s = true -> chain s = true -> is_seq s = false -> reads_stmt s -> reads_block s.
Proof.
  intros R C Q P n rest N. destruct n; [lia|]. destruct (hd_stmt s R C) as (t & r & E & H). cbn [p_block]. rewrite E. cbn [app]. rewrite H.
  change (t :: r ++ sign "}" :: rest) with ((t :: r) ++ sign "}" :: rest). rewrite <- E, (P n _ ltac:(lia)). reflexivity.
Qed.
Ltac step_is := repeat match goal with |- context [is ?s (sign ?s')] => let v := eval vm_compute in (is s (sign s')) in change (is s (sign s')) with v; cbv iota end.
Lemma read_stmts s : readable s = true -> (chain s = true -> is_seq s = false -> reads_stmt s) /\ (is_skip s || chain s = true -> reads_block s).
Proof.
  assert (F : forall s, readable s = true -> is_skip s = false -> is_seq s = false -> (chain s = true -> reads_stmt s) ->
    (chain s = true -> is_seq s = false -> reads_stmt s) /\ (is_skip s || chain s = true -> reads_block s)).
  { intros s0 R K Q P. split; [auto|]. rewrite K. cbn [orb]. intros C. apply stmt_block; auto. }
  induction s as [|a IHa b IHb|x t|l r|init c a IH|c a IHa b IHb|x m a IH|a]; intros R.
  - split; [discriminate|]. intros _ n rest N. destruct n; [lia|]. cbn [stoks app p_block]. step_is. reflexivity.
  - split; [discriminate|]. cbn [is_skip orb]. intros C n rest N. cbn [readable chain stoks] in R, C, N |- *.
    apply andb_prop in R as [R1 R2]. apply andb_prop in C as [C C2]. apply andb_prop in C as [Q C1]. apply negb_true_iff in Q.
    rewrite app_length in N. destruct (hd_stmt a R1 C1) as (t & r & E & H). destruct (hd_stmt b R2 C2) as (t' & r' & E' & H').
    destruct n; [lia|]. rewrite <- app_assoc. cbn [p_block]. rewrite E. cbn [app]. rewrite H.
    change (t :: r ++ stoks b ++ sign "}" :: rest) with ((t :: r) ++ stoks b ++ sign "}" :: rest). rewrite <- E.
    destruct (IHa R1) as [PA _]. rewrite (PA C1 Q n _ ltac:(lia)). cbn [bind_opt]. destruct (IHb R2) as [_ PB]. rewrite C2, orb_true_r in PB. specialize (PB eq_refl).
    assert (LA : (1 <= length (stoks a))%nat) by (rewrite E; cbn [length]; lia).
    specialize (PB n rest ltac:(lia)). rewrite E' in PB |- *. cbn [app] in PB |- *. rewrite H', PB. reflexivity.
  - apply F; try reflexivity; [exact R|]. intros _ n rest N. cbn [readable] in R. apply andb_prop in R as [R1 R2]. cbn [stoks] in *. cbn [length] in N. destruct n; [lia|].
    change (word "var") with (Word (str "var")). cbn [app p_stmt]. change (same_text (str "var") (str "var")) with true. cbv iota. cbn [some_word]. rewrite R1.
    rewrite <- app_assoc. cbn [app]. rewrite (until_free ";" t rest R2). reflexivity.
  - apply F; try reflexivity; [exact R|]. intros _ n rest N. cbn [readable] in R. destruct l as [|a l]; [discriminate R|]. unfold ready_set in R. apply andb_prop in R as [R RR].
    cbn [forallb] in R. apply andb_prop in R as [RA RL]. cbn [stoks] in *. rewrite set_rest in *. rewrite !app_length in N. cbn [length] in N.
    apply andb_prop in RA as [R1 R2]. destruct n; [lia|]. rewrite <- !app_assoc. rewrite (plain_start a n _ R2). rewrite (read_expr a n _ R1 R2 (rest_quiet _ _ _) ltac:(lia)). cbn [bind_opt app].
    rewrite (read_rest l r n (sign ";" :: rest) RL RR eq_refl ltac:(lia)). cbn [bind_opt expect]. step_is. reflexivity.
  - apply F; try reflexivity; [exact R|]. intros C n rest N. cbn [readable chain] in R, C. apply andb_prop in R as [R R3]. apply andb_prop in R as [R1 R2].
    destruct (IH R3) as [_ PB]. specialize (PB C). apply andb_prop in R2 as [R2 R2']. cbn [stoks] in *. cbn [length] in N. repeat (rewrite app_length in N; cbn [length] in N).
    destruct n; [lia|]. change (word "if") with (Word (str "if")). cbn [app p_stmt]. change (same_text (str "if") (str "var")) with false. change (same_text (str "if") (str "return")) with false.
    change (same_text (str "if") (str "if")) with true. cbv iota. destruct init as [[l r]|].
    + destruct l as [|d l]; [discriminate R1|]. unfold ready_set in R1. apply andb_prop in R1 as [R1 RR]. cbn [forallb] in R1. apply andb_prop in R1 as [RD RL]. apply andb_prop in RD as [RD1 RD2].
      rewrite set_rest in *. rewrite !app_length in N. cbn [length] in N. repeat (rewrite <- app_assoc; cbn [app]).
      rewrite (read_expr d n _ RD1 RD2 (rest_quiet _ _ _) ltac:(lia)). cbn [bind_opt].
      assert (HR : exists t q, rest_toks l r = t :: q /\ is "{" t = false). { unfold rest_toks. destruct l; cbn [app]; eexists _, _; split; reflexivity. }
      destruct HR as (t & q & HR & HB). rewrite HR at 1. cbn [app]. rewrite HB.
      rewrite (read_rest l r n (sign ";" :: _) RL RR eq_refl ltac:(lia)). cbn [bind_opt expect]. step_is.
      rewrite (read_expr c n (sign "{" :: _) R2 R2' eq_refl ltac:(lia)). cbn [bind_opt expect]. step_is. rewrite (PB n _ ltac:(lia)). cbn [bind_opt expect]. step_is. reflexivity.
    + cbn [app]. repeat (rewrite <- app_assoc; cbn [app]). cbn [length] in N. rewrite (read_expr c n (sign "{" :: _) R2 R2' eq_refl ltac:(lia)). cbn [bind_opt expect]. step_is.
      rewrite (PB n _ ltac:(lia)). cbn [bind_opt expect]. step_is. reflexivity.
  - apply F; try reflexivity; [exact R|]. intros C n rest N. cbn [readable chain] in R, C. apply andb_prop in R as [R R3]. apply andb_prop in R as [R1 R2]. apply andb_prop in C as [C1 C2].
    destruct (IHa R2) as [_ PA]. specialize (PA C1). destruct (IHb R3) as [_ PB]. specialize (PB C2). apply andb_prop in R1 as [R1 R1']. cbn [stoks] in *. cbn [length] in N. repeat (rewrite app_length in N; cbn [length] in N).
    destruct n; [lia|]. change (word "if") with (Word (str "if")). cbn [app p_stmt]. change (same_text (str "if") (str "var")) with false. change (same_text (str "if") (str "return")) with false.
    change (same_text (str "if") (str "if")) with true. cbv iota. repeat (rewrite <- app_assoc; cbn [app]). rewrite (read_expr c n (sign "{" :: _) R1 R1' eq_refl ltac:(lia)). cbn [bind_opt expect]. step_is.
    rewrite (PA n _ ltac:(lia)). cbn [bind_opt expect]. step_is. change (is ";" (word "else")) with false. cbv iota. change (word "else") with (Word (str "else")). cbn [expect_word].
    change (same_text (str "else") (str "else")) with true. cbv iota. cbn [expect]. step_is. rewrite (PB n _ ltac:(lia)). cbn [bind_opt expect]. step_is. reflexivity.
  - apply F; try reflexivity; [exact R|]. intros C n rest N. cbn [readable chain] in R, C. apply andb_prop in R as [R R3]. apply andb_prop in R as [R1 R2].
    destruct (IH R3) as [_ PB]. specialize (PB C). apply andb_prop in R2 as [R2 R2']. cbn [stoks] in *. cbn [length app] in N. repeat (rewrite app_length in N; cbn [length] in N).
    destruct n; [lia|]. change (word "for") with (Word (str "for")). cbn [app p_stmt]. change (same_text (str "for") (str "var")) with false. change (same_text (str "for") (str "return")) with false.
    change (same_text (str "for") (str "if")) with false. change (same_text (str "for") (str "for")) with true. cbv iota. cbn [some_word]. rewrite R1. cbn [expect]. step_is. change (word "0") with (Word (str "0")). cbn [expect_word].
    change (same_text (str "0") (str "0")) with true. cbv iota. cbn [expect]. step_is. cbn [some_word]. rewrite R1. cbn [expect]. step_is. repeat (rewrite <- app_assoc; cbn [app]).
    rewrite (read_expr m n (sign ";" :: _) R2 R2' eq_refl ltac:(lia)). cbn [bind_opt expect]. step_is. cbn [some_word]. rewrite R1. cbn [expect]. step_is.
    rewrite (PB n _ ltac:(lia)). cbn [bind_opt expect]. step_is. assert (SX : same_text x x = true) by (unfold same_text; now destruct (byte_list_dec x x)). rewrite SX. reflexivity.
  - apply F; try reflexivity; [exact R|]. intros C n rest N. cbn [readable] in R. apply andb_prop in R as [R1 R2]. cbn [stoks] in *. cbn [length] in N. rewrite app_length in N. cbn [length] in N.
    destruct n; [lia|]. change (word "return") with (Word (str "return")). cbn [app p_stmt]. change (same_text (str "return") (str "var")) with false. change (same_text (str "return") (str "return")) with true. cbv iota.
    rewrite <- app_assoc. cbn [app]. rewrite (read_expr a n (sign ";" :: _) R1 R2 eq_refl ltac:(lia)). cbn [bind_opt expect]. step_is. reflexivity.
Qed.

(** ** Functions *)
Definition readable_func (f : gfunc) : bool :=
  a_name (g_recv f) && a_name (g_type f) && a_name (g_name f) && a_name (g_param f) && a_name (g_ptype f) && readable (g_body f) && (is_skip (g_body f) || chain (g_body f)).
Lemma read_func f n rest : readable_func f = true -> (3 * length (ftoks f) <= n + 3)%nat -> p_func n (ftoks f ++ rest) = Some (f, rest).
Proof.
  destruct f as [recv ptr type name param ptype body]. unfold readable_func, ftoks. cbn [g_recv g_ptr g_type g_name g_param g_ptype g_body]. intros R N.
  apply andb_prop in R as [R C]. apply andb_prop in R as [R RB]. apply andb_prop in R as [R R5]. apply andb_prop in R as [R R4]. apply andb_prop in R as [R R3]. apply andb_prop in R as [R1 R2].
  destruct (read_stmts body RB) as [_ P]. specialize (P C). repeat (rewrite app_length in N; cbn [length] in N).
  unfold p_func. change (word "func") with (Word (str "func")). repeat (rewrite <- app_assoc; cbn [app]). cbn [app expect_word].
  change (same_text (str "func") (str "func")) with true. cbv iota. cbn [expect]. step_is. cbn [some_word]. rewrite R1.
  assert (X : forall A (k : bool -> list token -> option A) (tl : list token), (let '(p, ts) := match (if ptr then [sign "*"] else []) ++ Word type :: tl with t :: r => if is "*" t then (true, r) else (false, (if ptr then [sign "*"] else []) ++ Word type :: tl) | [] => (false, (if ptr then [sign "*"] else []) ++ Word type :: tl) end in k p ts) = k ptr (Word type :: tl)).
  { intros A k tl. destruct ptr; cbn [app]; [step_is; reflexivity|]. change (is "*" (Word type)) with false. reflexivity. }
  rewrite X. cbn [some_word]. rewrite R2. cbn [expect]. step_is. cbn [some_word]. rewrite R3. cbn [expect]. step_is. cbn [some_word]. rewrite R4. cbn [expect]. step_is.
  change (word "abi") with (Word (str "abi")). cbn [expect_word]. change (same_text (str "abi") (str "abi")) with true. cbv iota. cbn [expect]. step_is. cbn [some_word]. rewrite R5. cbn [expect]. step_is.
  change (word "error") with (Word (str "error")). cbn [expect_word]. change (same_text (str "error") (str "error")) with true. cbv iota. cbn [expect]. step_is.
  rewrite (P n _ ltac:(lia)). cbn [bind_opt expect]. step_is. reflexivity.
Qed.
Lemma read_file fs : forall n, forallb readable_func fs = true -> (3 * length (concat (map ftoks fs)) <= n)%nat -> p_file n (concat (map ftoks fs)) = Some fs.
Proof.
  induction fs as [|f fs IH]; intros n R N; cbn [map concat forallb] in *; [destruct n; reflexivity|].
  apply andb_prop in R as [R1 R2]. rewrite app_length in N.
  destruct (ftoks f) as [|t ts] eqn:E; [discriminate E|]. cbn [length] in N. destruct n; [lia|]. cbn [app p_file]. change (t :: ts ++ concat (map ftoks fs)) with ((t :: ts) ++ concat (map ftoks fs)).
  rewrite <- E, (read_func f n _ R1); [|rewrite E; cbn [length]; lia]. cbn [bind_opt]. rewrite (IH n R2 ltac:(lia)). reflexivity.
Qed.
