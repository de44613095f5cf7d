(** The statements of a block one behind the other, whatever way they were put together:
    the same spelling, and the same meaning. *)
From Verif Require Import Base Prog AbiPrim Chain Values Leaf GoStd Numbers Reflect Codegen GoLang GoCheck GoParse GoParseProofs.

Fixpoint join (l : list gstmt) : gstmt :=
  match l with [] => GSkip | [s] => s | s :: l => GSeq s (join l) end.
Fixpoint flat (s : gstmt) : list gstmt :=
  match s with
  | GSkip => []
  | GSeq a b => flat a ++ flat b
  | GIf init c a => [GIf init c (join (flat a))]
  | GIfElse c a b => [GIfElse c (join (flat a)) (join (flat b))]
  | GFor x n a => [GFor x n (join (flat a))]
  | s => [s]
  end.
Definition norm (s : gstmt) : gstmt := join (flat s).
Lemma join_two a b l : join (a :: b :: l) = GSeq a (join (b :: l)).
Proof. reflexivity. Qed.

(** ** Spelling *)
Lemma stoks_join l : stoks (join l) = concat (map stoks l).
Proof.
  induction l as [|a l IH]; [reflexivity|]. destruct l as [|b l]; [cbn [join map concat]; now rewrite app_nil_r|].
  rewrite join_two. cbn [stoks]. rewrite IH. reflexivity.
Qed.
Lemma stoks_norm s : stoks (norm s) = stoks s.
Proof.
  unfold norm. rewrite stoks_join. induction s as [|a IHa b IHb|x t|l r|init c a IH|c a IHa b IHb|x m a IH|a]; cbn [flat map concat stoks]; try (now rewrite ?app_nil_r).
  - now rewrite map_app, concat_app, IHa, IHb.
  - now rewrite stoks_join, IH, app_nil_r.
  - now rewrite !stoks_join, IHa, IHb, app_nil_r.
  - now rewrite !stoks_join, IH, app_nil_r.
Qed.
Lemma readable_join l : readable (join l) = forallb readable l.
Proof.
  induction l as [|a l IH]; [reflexivity|]. destruct l as [|b l]; [cbn [join forallb]; now rewrite andb_true_r|].
  rewrite join_two. cbn [readable]. rewrite IH. reflexivity.
Qed.
Lemma readable_norm s : readable (norm s) = readable s.
Proof.
  unfold norm. rewrite readable_join. induction s as [|a IHa b IHb|x t|l r|init c a IH|c a IHa b IHb|x m a IH|a]; cbn [flat forallb readable]; try (now rewrite ?andb_true_r).
  - now rewrite forallb_app, IHa, IHb.
  - now rewrite readable_join, IH, andb_true_r.
  - now rewrite !readable_join, IHa, IHb, andb_true_r.
  - now rewrite !readable_join, IH, andb_true_r.
Qed.
Lemma chain_join l : Forall (fun s => chain s = true /\ is_seq s = false) l -> is_skip (join l) || chain (join l) = true.
Proof.
  intros H. induction H as [|a l [C Q] H IH]; [reflexivity|]. destruct l as [|b l]; [cbn [join]; now rewrite C, orb_true_r|].
  rewrite join_two. cbn [chain is_skip orb]. rewrite Q, C. cbn [negb andb]. inversion H as [|? ? [C' Q'] _]; subst.
  destruct l as [|d l]; [exact C'|]. rewrite join_two in *. exact IH.
Qed.
Lemma chain_flat s : Forall (fun s => chain s = true /\ is_seq s = false) (flat s).
Proof.
  induction s as [|a IHa b IHb|x t|l r|init c a IH|c a IHa b IHb|x m a IH|a]; cbn [flat].
  - constructor.
  - apply Forall_app. now split.
  - constructor; [now split|constructor].
  - constructor; [now split|constructor].
  - constructor; [|constructor]. split; [|reflexivity]. exact (chain_join _ IH).
  - constructor; [|constructor]. split; [|reflexivity]. cbn [chain]. now rewrite (chain_join _ IHa), (chain_join _ IHb).
  - constructor; [|constructor]. split; [|reflexivity]. exact (chain_join _ IH).
  - constructor; [now split|constructor].
Qed.
Lemma chain_norm s : is_skip (norm s) || chain (norm s) = true.
Proof. apply chain_join, chain_flat. Qed.

(** ** What the compiler says *)
Lemma check_app E O l m : forall F, check E F O (join (l ++ m)) = match check E F O (join l) with Some F => check E F O (join m) | None => None end.
Proof.
  induction l as [|a l IH]; intros F; [reflexivity|]. destruct l as [|b l].
  - cbn [app join]. destruct m as [|b m]; [cbn [join check]; now destruct (check E F O a)|]. reflexivity.
  - cbn [app]. rewrite !join_two. cbn [check]. destruct (check E F O a) as [F'|]; [|reflexivity]. exact (IH F').
Qed.
Lemma check_norm E s : forall F O, check E F O (norm s) = check E F O s.
Proof.
  unfold norm. induction s as [|a IHa b IHb|x t|l r|init c a IH|c a IHa b IHb|x m a IH|a]; intros F O; cbn [flat join check]; try reflexivity.
  - rewrite check_app, IHa. destruct (check E F O a) as [F'|]; [apply IHb|reflexivity].
  - now rewrite IH.
  - now rewrite IHa, IHb.
  - now rewrite IH.
Qed.
Lemma without_app xs l m : without xs (l ++ m) = without xs l ++ without xs m.
Proof. apply filter_app. Qed.
Lemma without_both xs ys l : without (xs ++ ys) l = without xs (without ys l).
Proof.
  induction l as [|x l IH]; [reflexivity|]. unfold without, has in *. cbn [filter]. rewrite existsb_app.
  destruct (existsb (same_text x) ys) eqn:Y; cbn [negb filter].
  - rewrite orb_true_r. exact IH.
  - rewrite orb_false_r. destruct (existsb (same_text x) xs); cbn [negb]; [exact IH|now rewrite IH].
Qed.
Lemma without_nil l : without [] l = l.
Proof. induction l as [|x l IH]; [reflexivity|]. change (without [] (x :: l)) with (x :: without [] l). now rewrite IH. Qed.
Lemma declares_app l m : declares (join (l ++ m)) = declares (join l) ++ declares (join m).
Proof.
  induction l as [|a l IH]; [reflexivity|]. destruct l as [|b l].
  - cbn [app join]. destruct m as [|b m]; [cbn [join declares]; now rewrite app_nil_r|reflexivity].
  - cbn [app]. rewrite !join_two. cbn [declares]. rewrite <- app_assoc. f_equal. exact IH.
Qed.
Lemma declares_norm s : declares (norm s) = declares s.
Proof.
  unfold norm. induction s as [|a IHa b IHb|x t|l r|init c a IH|c a IHa b IHb|x m a IH|a]; cbn [flat join declares]; try reflexivity.
  now rewrite declares_app, IHa, IHb.
Qed.
Lemma free_app l m : free (join (l ++ m)) = free (join l) ++ without (declares (join l)) (free (join m)).
Proof.
  induction l as [|a l IH]; [cbn [app join free declares]; now rewrite without_nil|]. destruct l as [|b l].
  - cbn [app join]. destruct m as [|b m]; [cbn [join free without filter]; now rewrite app_nil_r|reflexivity].
  - cbn [app]. rewrite !join_two. cbn [free declares]. change (b :: l ++ m) with ((b :: l) ++ m). rewrite IH, without_app, without_both, <- app_assoc. reflexivity.
Qed.
Lemma free_norm s : free (norm s) = free s.
Proof.
  induction s as [|a IHa b IHb|x t|l r|init c a IH|c a IHa b IHb|x m a IH|a]; unfold norm in *; cbn [flat join free]; try reflexivity.
  - rewrite free_app, IHa, IHb. pose proof (declares_norm a) as D. unfold norm in D. now rewrite D.
  - now rewrite IH.
  - now rewrite IHa, IHb.
  - now rewrite IH.
Qed.
Lemma used_app l m : forall K, all_used (join (l ++ m)) K = all_used (join l) (free (join m) ++ without (declares (join m)) K) && all_used (join m) K.
Proof.
  induction l as [|a l IH]; intros K; [reflexivity|]. destruct l as [|b l].
  - cbn [app join]. destruct m as [|b m]; [cbn [join free declares all_used app]; now rewrite without_nil, andb_true_r|reflexivity].
  - cbn [app]. rewrite !join_two. cbn [all_used]. change (b :: l ++ m) with ((b :: l) ++ m). rewrite IH, free_app, declares_app, without_app, without_both, <- app_assoc. now rewrite andb_assoc.
Qed.
Lemma used_norm s : forall K, all_used (norm s) K = all_used s K.
Proof.
  induction s as [|a IHa b IHb|x t|l r|init c a IH|c a IHa b IHb|x m a IH|a]; intros K; unfold norm in *; cbn [flat join all_used]; try reflexivity.
  - rewrite used_app, IHa, IHb. pose proof (declares_norm b) as D. pose proof (free_norm b) as G. unfold norm in D, G. now rewrite D, G.
  - now rewrite IH.
  - now rewrite IHa, IHb.
  - now rewrite IH.
Qed.
Lemma returns_app l m : m <> [] -> returns (join (l ++ m)) = returns (join m).
Proof.
  intros N. induction l as [|a l IH]; [reflexivity|]. cbn [app]. destruct (l ++ m) as [|b q] eqn:E; [now apply app_eq_nil in E|]. rewrite join_two. cbn [returns]. exact IH.
Qed.
Lemma returns_norm s : returns s = true -> returns (norm s) = true.
Proof.
  unfold norm. induction s as [|a IHa b IHb|x t|l r|init c a IH|c a IHa b IHb|x m a IH|a]; cbn [flat join returns]; intros H; try discriminate H; try reflexivity.
  - specialize (IHb H). rewrite returns_app; [exact IHb|]. intros E. now rewrite E in IHb.
  - apply andb_prop in H as [A B]. now rewrite IHa, IHb.
Qed.

(** ** What running them does: for any kind of programs with the laws of a monad, up to [R] *)
Lemma exec_norm {M : Type -> Type} (ret : forall A, A -> M A) (bind : forall A B, M A -> (A -> M B) -> M B) fail call (R : forall A, M A -> M A -> Prop) E :
  (forall A (p : M A), R A p p) -> (forall A (p q r : M A), R A p q -> R A q r -> R A p r) -> (forall A (p q : M A), R A p q -> R A q p) ->
  (forall A B (p q : M A) (f g : A -> M B), R A p q -> (forall a, R B (f a) (g a)) -> R B (bind A B p f) (bind A B q g)) ->
  (forall A B C (p : M A) (f : A -> M B) (g : B -> M C), R C (bind B C (bind A B p f) g) (bind A C p (fun a => bind B C (f a) g))) ->
  (forall A B a (f : A -> M B), R B (bind A B (ret A a) f) (f a)) ->
  (forall A (p : M A), R A (bind A A p (fun a => ret A a)) p) ->
  forall s env, R _ (exec ret bind fail call E env (norm s)) (exec ret bind fail call E env s).
Proof.
  intros RF TR SY BC BA RL RR.
  assert (AP : forall l m env, R _ (exec ret bind fail call E env (join (l ++ m))) (exec ret bind fail call E env (GSeq (join l) (join m)))).
  { intros l m. induction l as [|a l IH]; intros env.
    - cbn [app join exec]. apply SY. exact (RL _ _ (env, None) _).
    - destruct l as [|b l].
      + cbn [app join]. destruct m as [|b m]; [|apply RF]. cbn [join exec]. apply SY. eapply TR; [|apply RR]. apply BC; [apply RF|]. intros [env' [v|]]; apply RF.
      + cbn [app]. rewrite !join_two. cbn [exec]. apply SY. eapply TR; [apply BA|]. apply BC; [apply RF|]. intros [env' [v|]].
        * exact (RL _ _ (env', Some v) _).
        * apply SY. exact (IH env'). }
  assert (LP : forall (f g : nat -> genv -> M (genv * option gval)%type), (forall i env, R _ (f i env) (g i env)) -> forall n i env, R _ (loop ret bind f n i env) (loop ret bind g n i env)).
  { intros f g FG n. induction n as [|n IH]; intros i env; cbn [loop]; [apply RF|]. apply BC; [apply FG|]. intros [env' [v|]]; [apply RF|apply IH]. }
  induction s as [|a IHa b IHb|x t|l r|init c a IH|c a IHa b IHb|x m a IH|a]; intros env; unfold norm in *; cbn [flat join]; try apply RF.
  - eapply TR; [apply AP|]. cbn [exec]. apply BC; [apply IHa|]. intros [env' [v|]]; [apply RF|apply IHb].
  - cbn [exec]. apply BC; [apply RF|]. intros env'. destruct (eval E env' c) as [[t [p z| | | | | | | |]| | | |]|e|m]; try apply RF. destruct p; try apply RF. destruct b; [|apply RF].
    apply BC; [apply IH|]. intros [env'' r]. apply RF.
  - cbn [exec]. destruct (eval E env c) as [[t [p z| | | | | | | |]| | | |]|e|m]; try apply RF. destruct p; try apply RF. destruct b0; (apply BC; [first [apply IHa|apply IHb]|]); intros [env'' r]; apply RF.
  - cbn [exec]. destruct (eval E env m) as [[t [p z| | | | | | | |]| | | |]|e|q]; try apply RF. destruct p; try apply RF. apply LP. intros i env'. apply BC; [apply IH|]. intros [env'' r]. apply RF.
Qed.

(** ** Functions *)
Definition norm_func (f : gfunc) : gfunc :=
  {| g_recv := g_recv f; g_ptr := g_ptr f; g_type := g_type f; g_name := g_name f; g_param := g_param f; g_ptype := g_ptype f; g_body := norm (g_body f) |}.
Lemma ftoks_norm f : ftoks (norm_func f) = ftoks f.
Proof. unfold ftoks. cbn [norm_func g_recv g_ptr g_type g_name g_param g_ptype g_body]. now rewrite stoks_norm. Qed.
Lemma func_ok_norm E fs f : returns (g_body f) = true -> func_ok E fs (norm_func f) = func_ok E fs f.
Proof.
  intros R. unfold func_ok, param_type. cbn [norm_func g_param g_recv g_body g_ptype]. rewrite check_norm, used_norm, R, (returns_norm _ R). reflexivity.
Qed.
(** The parser finds the functions that a text spells. *)
Lemma parse_spelled text F G : tokens_of text = Some (ftoks F ++ ftoks G) ->
  readable (g_body F) = true -> readable (g_body G) = true ->
  forallb a_name [g_recv F; g_type F; g_name F; g_param F; g_ptype F; g_recv G; g_type G; g_name G; g_param G; g_ptype G] = true ->
  parse text = Some [norm_func F; norm_func G].
Proof.
  intros T RF RG N. unfold parse. rewrite T. cbn [bind_opt]. assert (E : ftoks F ++ ftoks G = concat (map ftoks [norm_func F; norm_func G])).
  { cbn [map concat]. now rewrite !ftoks_norm, app_nil_r. }
  rewrite E. apply read_file; [|lia]. cbn [forallb] in N. repeat (apply andb_prop in N as [?N N]). cbn [forallb]. unfold readable_func. cbn [norm_func g_recv g_type g_name g_param g_ptype g_body].
  rewrite !readable_norm, !chain_norm, RF, RG. now rewrite N0, N1, N2, N3, N4, N5, N6, N7, N8, N9.
Qed.
