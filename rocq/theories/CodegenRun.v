(** Running the Go programs that the generator's text spells is running the code of
    Codegen.v. *)
From Verif Require Import Base Prog AbiPrim Chain Values Leaf SpecLeaf SpecText GoStd GoStdProofs Numbers Reflect SpecReflect SpecCodegen Codegen CodegenText
  GoLang CodegenSource CodegenProgram.

(** ** The fields the generator finds *)
Lemma type_text_chars t : forallb type_char (type_text t) = true.
Proof.
  induction t as [k|k| |t IH|t IH|n t IH|k IHk v IHv|fs|i u _|i]; try reflexivity.
  - destruct k; reflexivity.
  - cbn [type_text forallb]. now rewrite IH.
  - cbn [type_text]. rewrite forallb_app, IH. reflexivity.
  - cbn [type_text forallb]. rewrite forallb_app. cbn [forallb]. rewrite IH.
    assert (D : forallb type_char (FormatUint (Z.of_nat n)) = true).
    { pose proof (proj2 (digits_word (Z.of_nat n) ltac:(lia))) as W. rewrite forallb_forall in *. intros c I. unfold type_char. now rewrite (W c I). }
    now rewrite D.
  - cbn [type_text]. rewrite !forallb_app. cbn [forallb]. now rewrite IHk, IHv.
Qed.
Lemma forallb_skipn {A} (p : A -> bool) n l : forallb p l = true -> forallb p (skipn n l) = true.
Proof. revert l. induction n as [|n IH]; intros [|x l] H; try exact H. cbn [skipn forallb] in *. apply andb_prop in H as [_ H]. now apply IH. Qed.
Lemma closing_chars p s acc d r : forallb p s = true -> closing s acc = Some (d, r) -> forallb p r = true.
Proof.
  revert acc. induction s as [|c s IH]; intros acc H C; [discriminate C|]. cbn [forallb closing] in *. apply andb_prop in H as [_ H].
  destruct (Byte.eqb c x5d); [injection C as _ <-; exact H|]. exact (IH _ H C).
Qed.
Lemma parsed_nonneg n : 0 <= parsed_len n.
Proof.
  unfold parsed_len. destruct (ParseInt _ _) as [v|e|m] eqn:P; try lia. apply ParseInt_ok in P as [I _]; [|lia].
  pose proof (FormatUint_digits (Z.of_nat n) ltac:(lia)) as D. remember (FormatUint (Z.of_nat n)) as s. destruct I as [s N D'|s N D'|s N D'].
  - pose proof (FormatUint_val (Z.of_nat n) ltac:(lia)) as V. rewrite <- Heqs in V. lia.
  - inversion D as [|? ? X _]. subst. unfold digit in X. cbn in X. lia.
  - inversion D as [|? ? X _]. subst. unfold digit in X. cbn in X. lia.
Qed.
Lemma classified t tg f : classify (type_text t) tg = Ok f -> good_field f.
Proof.
  intros C. assert (L : 0 <= f_len f).
  { pose proof (classify_text t tg) as X. destruct (is_optional tg && negb (pointer t)).
    - destruct X as (m & X). congruence.
    - destruct X as (text & X). rewrite X in C. injection C as <-. unfold field_of. destruct (shape_of t) as [p [[[s a] n] m]] eqn:S. cbn [f_len].
      assert (B : forall u, 0 <= snd (fst (body_of u))).
      { intros u. destruct u; cbn; try lia; try apply parsed_nonneg. destruct k; cbn; lia. }
      assert (Q : exists u, snd (shape_of t) = body_of u) by (destruct t; eexists; cbn [shape_of snd]; reflexivity).
      destruct Q as (u & Q). specialize (B u). rewrite <- Q, S in B. exact B. }
  pose proof (type_text_chars t) as TC. unfold classify in C.
  destruct (match type_text t with [] => _ | c :: r => _ end) as [ptr text] eqn:P.
  assert (T1 : forallb type_char text = true).
  { destruct (type_text t) as [|c r]; [injection P as _ <-; reflexivity|]. destruct (Byte.eqb c x2a); injection P as _ <-; [|exact TC].
    cbn [forallb] in TC. now apply andb_prop in TC as [_ TC]. }
  destruct (if has_prefix (str "[]") text then _ else _) as [[[sl ar] n] text'] eqn:B.
  assert (T2 : forallb type_char text' = true).
  { destruct (has_prefix (str "[]") text); [apply (f_equal snd) in B; cbn [snd] in B; rewrite <- B; now apply forallb_skipn|].
    destruct (has_prefix (str "[") text); [|apply (f_equal snd) in B; cbn [snd] in B; rewrite <- B; exact T1].
    destruct (closing (skipn 1 text) []) as [[d r]|] eqn:CL; apply (f_equal snd) in B; cbn [snd] in B; rewrite <- B; [|exact T1].
    eapply closing_chars; [|exact CL]. now apply forallb_skipn. }
  destruct tg; try (injection C as <-; repeat split; assumption).
  destruct ptr; [|discriminate C]. injection C as <-. repeat split; assumption.
Qed.

Lemma classified_all fs l : classify_all fs = Ok l -> Forall2 (fun '(tg, _, t) f => classify (type_text t) tg = Ok f) fs l.
Proof.
  revert l. induction fs as [|[[tg vis] t] fs IH]; intros l C; cbn [classify_all] in C.
  - injection C as <-. constructor.
  - destruct (classify (type_text t) tg) as [f|e|m] eqn:CF; try discriminate C. cbn [rbind] in C.
    destruct (classify_all fs) as [l'|e|m] eqn:CA; try discriminate C. cbn [rbind] in C. injection C as <-.
    constructor; [exact CF|now apply IH].
Qed.

(** ** Programs that do the same *)
Inductive esim {A B} (R : A -> B -> Prop) : enc A -> enc B -> Prop :=
| es_ret a b : R a b -> esim R (ERet a) (ERet b)
| es_panic m : esim R (EPanic m) (EPanic m)
| es_fuel : esim R EFuel EFuel
| es_write bs k k' : (forall e, esim R (k e) (k' e)) -> esim R (EWrite bs k) (EWrite bs k').
Inductive dsim {A B} (R : A -> B -> Prop) : dec A -> dec B -> Prop :=
| ds_ret a b : R a b -> dsim R (DRet a) (DRet b)
| ds_panic m : dsim R (DPanic m) (DPanic m)
| ds_fuel : dsim R DFuel DFuel
| ds_read n k k' : (forall bs e, dsim R (k bs e) (k' bs e)) -> dsim R (DRead n k) (DRead n k')
| ds_go k k' : (forall b, dsim R (k b) (k' b)) -> dsim R (DGo k) (DGo k').
Lemma esim_bind {A B C D} (R : A -> B -> Prop) (S : C -> D -> Prop) p q f g :
  esim R p q -> (forall a b, R a b -> esim S (f a) (g b)) -> esim S (ebind p f) (ebind q g).
Proof. intros H F. induction H as [a b H|m| |bs k k' H IH]; cbn [ebind]; [now apply F|constructor|constructor|]. constructor. exact IH. Qed.
Lemma dsim_bind {A B C D} (R : A -> B -> Prop) (S : C -> D -> Prop) p q f g :
  dsim R p q -> (forall a b, R a b -> dsim S (f a) (g b)) -> dsim S (dbind p f) (dbind q g).
Proof.
  intros H F. induction H as [a b H|m| |n k k' H IH|k k' H IH]; cbn [dbind]; [now apply F|constructor|constructor| |].
  - constructor. exact IH.
  - constructor. exact IH.
Qed.
Lemma esim_refl {A} (p : enc A) : esim eq p p.
Proof. induction p; constructor; auto. Qed.
Lemma dsim_refl {A} (p : dec A) : dsim eq p p.
Proof. induction p; constructor; auto. Qed.
Lemma ebind_ret {A} (p : enc A) : esim eq (ebind p (fun a => ERet a)) p.
Proof. induction p; cbn [ebind]; constructor; auto. Qed.
Lemma esim_runf {A} (p q : enc A) : esim eq p q -> forall o i out, runf o i p out = runf o i q out.
Proof.
  induction 1 as [a b ->|m| |bs k k' H IH]; intros o i out; cbn [runf]; try reflexivity.
  destruct (o i) as [[n e]|]; apply IH.
Qed.
Lemma dsim_run {A} (p q : dec A) : dsim eq p q -> forall env inp, run env p inp = run env q inp.
Proof.
  induction 1 as [a b ->|m| |n k k' H IH|k k' H IH]; intros env inp; cbn [run]; try reflexivity; [|apply IH].
  destruct (n <=? zlen inp); apply IH.
Qed.
Lemma dsim_run_chunks {A} (p q : dec A) : dsim eq p q -> forall env cs, run_chunks env p cs = run_chunks env q cs.
Proof.
  induction 1 as [a b ->|m| |n k k' H IH|k k' H IH]; intros env cs; cbn [run_chunks]; try reflexivity; [|apply IH].
  destruct (readfull _ _ _ _) as [[got e] cs']. apply IH.
Qed.

(** ** Variables *)
Lemma same_text_refl x : same_text x x = true.
Proof. now apply same_text_iff. Qed.
Lemma lookup_update {A} x y (v : A) l : lookup x (update y v l) = if same_text x y then match lookup y l with Some _ => Some v | None => None end else lookup x l.
Proof.
  induction l as [|[z w] l IH]; cbn [update lookup]; [now destruct (same_text x y)|].
  destruct (same_text y z) eqn:YZ; cbn [lookup].
  - apply same_text_iff in YZ. subst z. destruct (same_text x y) eqn:XY; reflexivity.
  - rewrite IH. destruct (same_text x z) eqn:XZ; [|reflexivity]. apply same_text_iff in XZ. subst z.
    destruct (same_text x y) eqn:XY; [|reflexivity]. apply same_text_iff in XY. subst y. now rewrite same_text_refl in YZ.
Qed.
Lemma update_keys {A} x (v : A) l : map fst (update x v l) = map fst l.
Proof. induction l as [|[y w] l IH]; [reflexivity|]. cbn [update]. destruct (same_text x y); cbn [map fst]; [reflexivity|now f_equal]. Qed.
Lemma leave_keys (env env' : genv) : map fst env' = map fst env -> leave env env' = env'.
Proof.
  intros H. apply (f_equal (@length _)) in H. rewrite !map_length in H. unfold leave. now rewrite H, Nat.sub_diag.
Qed.
Ltac names := repeat match goal with
  | |- context [same_text ?a ?b] => let r := eval vm_compute in (same_text a b) in
      match r with true => change (same_text a b) with true | false => change (same_text a b) with false end; cbv iota
  end.

(** ** MarshalABI *)
Notation wexec mar E := (exec (fun A a => ERet a) (fun A B => @ebind A B) (fun A => @EPanic A) (call_write mar E) E).
Record winv (fs : list (ident * (gtype * rval))) (ue ul : bool) (env : genv) : Prop := {
  w_v : lookup (str "v") env = Some (VFields fs);
  w_e : lookup (str "e") env = Some VCodec;
  w_err : lookup (str "err") env = Some (VErr None);
  w_nil : lookup (str "nil") env = None;
  w_ex : ue = true -> exists x, lookup (str "exists") env = Some (VAt (TLeaf KBool) x);
  w_len : ul = true -> exists x, lookup (str "length") env = Some (VAt (TLeaf KInt) x) }.
Definition wres fs ue ul (env0 : genv) : genv * option gval -> option gerr -> Prop := fun '(env, r) e =>
  map fst env = map fst env0 /\ match e with Some x => r = Some (VErr (Some x)) | None => r = None /\ winv fs ue ul env end.
Lemma winv_err fs ue ul env : winv fs ue ul env -> winv fs ue ul (update (str "err") (VErr None) env).
Proof.
  intros [A B C D F G]. constructor; try (rewrite lookup_update; names; assumption).
  rewrite lookup_update. names. now rewrite C.
Qed.
Lemma wchecked_exact mar E fs ue ul env r w : winv fs ue ul env ->
  call_write mar E env r = Some (err <~~ w ;; ERet (env, [VErr err])) ->
  esim (fun '(env', o) e => env' = update (str "err") (VErr e) env /\ o = match e with Some x => Some (VErr (Some x)) | None => None end)
    (wexec mar E env (checked [var "err"] r)) w.
Proof.
  intros I C. unfold checked. cbn [exec]. unfold set_vars. rewrite C. clear C.
  induction w as [e|m| |bs k IH]; cbn [ebind]; [|constructor|constructor|constructor; exact IH].
  cbn [store_all]. unfold store, var. cbn [eval]. rewrite (w_err _ _ _ _ I). cbn [rbind lift ebind].
  rewrite !lookup_update. names. rewrite (w_err _ _ _ _ I), (w_nil _ _ _ _ I). cbn [rbind].
  destruct e as [e|]; cbn [of_prim]; cbn [kind_of leaf_zero negb].
  - cbn [exec eval]. rewrite ?lookup_update. names. rewrite ?(w_err _ _ _ _ I). cbn [rbind lift ebind]. constructor.
    split; [|reflexivity]. now rewrite leave_keys by reflexivity.
  - constructor. split; reflexivity.
Qed.
Lemma esim_weaken {A B} (R S : A -> B -> Prop) p q : (forall a b, R a b -> S a b) -> esim R p q -> esim S p q.
Proof. intros W H. induction H; constructor; auto. Qed.
Lemma wchecked mar E fs ue ul env r w : winv fs ue ul env ->
  call_write mar E env r = Some (err <~~ w ;; ERet (env, [VErr err])) ->
  esim (wres fs ue ul env) (wexec mar E env (checked [var "err"] r)) w.
Proof.
  intros I C. eapply esim_weaken; [|exact (wchecked_exact mar E fs ue ul env r w I C)]. intros [env' o] e [-> ->].
  split; [apply update_keys|]. destruct e as [e|]; [reflexivity|]. split; [reflexivity|now apply winv_err].
Qed.
Definition has_index (i : nat) (env : genv) : Prop := lookup (str "i") env = Some (of_prim (PInt (Z.of_nat i))).
Lemma elements_noerr x e : elements x <> Err e.
Proof. destruct x as [p z| | |[[| | | | | | | |]|]| | | | |]; try discriminate. destruct p; discriminate. Qed.
Lemma value_at_noerr p i v e : value_at p i v <> Err e.
Proof.
  unfold value_at. destruct (star p).
  - destruct v as [| | |[y|]| | | | |]; cbn [rbind]; try discriminate. destruct (index p); [|discriminate].
    pose proof (elements_noerr y) as N. destruct (elements y) as [l|e'|m]; cbn [rbind]; [destruct (nth_error l i); discriminate|now elim (N e')|discriminate].
  - cbn [rbind]. destruct (index p); [|discriminate].
    pose proof (elements_noerr v) as N. destruct (elements v) as [l|e'|m]; cbn [rbind]; [destruct (nth_error l i); discriminate|now elim (N e')|discriminate].
Qed.
Lemma eval_field E env fs name t v : lookup (str "v") env = Some (VFields fs) -> lookup name fs = Some (t, v) -> eval E env (fld name) = Ok (VAt t v).
Proof. intros V F. unfold fld, var. cbn [eval]. rewrite V. cbn [rbind]. now rewrite F. Qed.
Lemma eval_star E env fs name t v u : lookup (str "v") env = Some (VFields fs) -> lookup name fs = Some (t, v) -> head E t = TPtr u ->
  eval E env (EStar (fld name)) = rbind (value_at {| star := true; index := false |} 0 v) (fun x => Ok (VAt u x)).
Proof.
  intros V F H. cbn [eval]. rewrite (eval_field E env fs name t v V F). cbn [rbind]. rewrite H. unfold value_at. cbn [star index].
  destruct v as [| | |[y|]| | | | |]; reflexivity.
Qed.
Lemma eval_index E env a t i (r : res rval) : has_index i env -> (forall e, r <> Err e) -> eval E env a = rbind r (fun x => Ok (VAt t x)) ->
  forall t', element_type E t = Some t' ->
  eval E env (EIndex a (var "i")) = rbind (rbind r (fun x => rbind (elements x) (fun l => match nth_error l i with Some y => Ok y | None => Panic "index out of range" end)))
                                      (fun x => Ok (VAt t' x)).
Proof.
  intros I NE A t' ET. cbn [eval]. rewrite A. destruct r as [x|e|m]; cbn [rbind]; [|now elim (NE e)|reflexivity].
  unfold var. cbn [eval]. rewrite I. cbn [rbind of_prim kind_of leaf_zero]. rewrite ET.
  pose proof (elements_noerr x) as N. destruct (elements x) as [l|e|m]; cbn [rbind]; [|now elim (N e)|reflexivity].
  rewrite Nat2Z.id. replace (Z.of_nat i <? 0) with false by (symmetry; apply Z.ltb_ge; lia).
  destruct (nth_error l i); reflexivity.
Qed.
Lemma eval_place E env fs name t v p i t' : lookup (str "v") env = Some (VFields fs) -> lookup name fs = Some (t, v) ->
  place_type E p t = Some t' -> (index p = true -> has_index i env) ->
  eval E env (place_expr name p) = rbind (value_at p i v) (fun x => Ok (VAt t' x)).
Proof.
  intros V F P I. destruct p as [st ix]. unfold place_type in P. unfold place_expr, value_at. cbn [star index] in *.
  destruct st.
  - destruct (head E t) as [| | |u| | | | | |] eqn:H; try discriminate P.
    pose proof (eval_star E env fs name t v u V F H) as S.
    assert (S' : eval E env (EParen (EStar (fld name))) = rbind (value_at {| star := true; index := false |} 0 v) (fun x => Ok (VAt u x))) by exact S.
    destruct ix.
    + rewrite (eval_index E env _ u i _ (I eq_refl) (value_at_noerr _ _ _) S' t' P). f_equal. unfold value_at. cbn [star index].
      destruct v as [| | |[y|]| | | | |]; reflexivity.
    + injection P as <-. rewrite S'. unfold value_at. cbn [star index]. destruct v as [| | |[y|]| | | | |]; reflexivity.
  - pose proof (eval_field E env fs name t v V F) as S. destruct ix.
    + rewrite (eval_index E env (fld name) t i (Ok v) (I eq_refl) ltac:(discriminate) S t' P). reflexivity.
    + injection P as <-. exact S.
Qed.

(** Values of the right kind. *)
Lemma typed_kind E t v k : has_type E any_leaf t v -> is_kind E k t = true -> exists p z, v = RLeaf p z /\ kind_of p = k.
Proof.
  intros T K. unfold is_kind in K. destruct T; rewrite ?H in K; try discriminate K. exists p, z. split; [reflexivity|].
  destruct (kind_dec k k0); congruence.
Qed.
Lemma have_nth E ok t l i x : have_type E ok t l -> nth_error l i = Some x -> has_type E ok t x.
Proof.
  intros H. revert i. induction H as [t|t y l T _ IH]; intros i N; [destruct i; discriminate N|].
  destruct i as [|i]; [injection N as <-; exact T|exact (IH i N)].
Qed.
Lemma element_kind E t v i x k t' : has_type E any_leaf t v -> element_type E t = Some t' -> is_kind E k t' = true ->
  rbind (elements v) (fun l => match nth_error l i with Some y => Ok y | None => Panic "index out of range" end) = Ok x ->
  exists p z, x = RLeaf p z /\ kind_of p = k.
Proof.
  intros T ET K X.
  assert (G : forall u l, have_type E any_leaf u l -> u = t' -> match nth_error l i with Some y => Ok y | None => Panic "index out of range" end = Ok x ->
    exists p z, x = RLeaf p z /\ kind_of p = k).
  { intros u l H -> N. destruct (nth_error l i) as [y|] eqn:Y; [|discriminate N]. injection N as ->.
    exact (typed_kind E t' x k (have_nth _ _ _ _ _ _ H Y) K). }
  unfold element_type in ET. destruct T as [t k0 p z H KP _ _|t k0 w H|t z H|t u H|t u w H T|t u H|t u l H T _|t u n l H T _|t kt vt H|t kt vt m H|t fs l H|t j u w H];
    rewrite H in ET; try discriminate ET; cbn [elements rbind] in X; try discriminate X.
  - destruct k0; try discriminate ET. injection ET as <-. destruct p; try discriminate KP. cbn [elements rbind] in X.
    unfold byte_elems in X. destruct (nth_error _ i) as [y|] eqn:Y; [|discriminate X]. injection X as ->.
    rewrite nth_error_map in Y. destruct (nth_error b i) as [c|]; [|discriminate Y]. injection Y as <-. eexists _, _. split; [reflexivity|].
    unfold is_kind in K. cbn [head] in K. destruct (kind_dec k KU8); [subst k; reflexivity|discriminate K].
  - destruct (head E u) as [| | | | |n w'| | | |] eqn:HU; try discriminate ET. injection ET as ->.
    destruct T; rewrite HU in H0; try discriminate H0. injection H0 as <- <-. cbn [elements rbind] in X. exact (G _ _ H1 eq_refl X).
  - destruct i; discriminate X.
  - injection ET as ->. exact (G _ _ T eq_refl X).
  - injection ET as ->. exact (G _ _ T eq_refl X).
Qed.
Lemma place_kind E t v p i x k t' : has_type E any_leaf t v -> place_type E p t = Some t' -> is_kind E k t' = true -> value_at p i v = Ok x ->
  exists q z, x = RLeaf q z /\ kind_of q = k.
Proof.
  intros T P K X. unfold place_type in P. unfold value_at in X. destruct (star p).
  - destruct (head E t) as [| | |u| | | | | |] eqn:H; try discriminate P.
    destruct T; rewrite H in H0; try discriminate H0; cbn [rbind] in X; try discriminate X. injection H0 as <-.
    destruct (index p); [exact (element_kind _ _ _ _ _ _ _ T P K X)|]. injection P as <-. injection X as <-. exact (typed_kind _ _ _ _ T K).
  - cbn [rbind] in X. destruct (index p); [exact (element_kind _ _ _ _ _ _ _ T P K X)|]. injection P as <-. injection X as <-. exact (typed_kind _ _ _ _ T K).
Qed.
Lemma method_written k : go_kind k = true -> method_kind "Write" (str "Write" ++ method_name k) = Some k.
Proof. destruct k; try discriminate; reflexivity. Qed.
Lemma method_read k : go_kind k = true -> method_kind "Read" (str "Read" ++ method_name k) = Some k.
Proof. destruct k; try discriminate; reflexivity. Qed.

(** What is to be shown of a piece of marshal code; [need]: it is inside a loop. *)
Definition wcode (mar : gtype -> rval -> wr) (E : types) (fs : list (ident * (gtype * rval))) (ue ul : bool) (name : ident) (T : list token)
  (t : gtype) (v : rval) (s : stmt) (need : bool) : Prop :=
  forall env i, winv fs ue ul env -> (need = true -> has_index i env) ->
  esim (wres fs ue ul env) (wexec mar E env (go_code name T s)) (exec_write mar E t v i s).
Lemma wcode_write mar E fs ue ul name T t v k p : lookup name fs = Some (t, v) -> has_type E any_leaf t v -> go_kind k = true ->
  well_typed E t (SWrite k p) = true -> wcode mar E fs ue ul name T t v (SWrite k p) (index p).
Proof.
  intros F TV GK WT env i I IX. cbn [well_typed] in WT. destruct (place_type E p t) as [t'|] eqn:P; [|discriminate WT].
  cbn [go_code exec_write]. pose proof (eval_place E env fs name t v p i t' (w_v _ _ _ _ I) F P IX) as EP.
  match goal with |- esim _ _ ?q => apply (wchecked mar E fs ue ul env _ q I) end.
  cbn [call_write]. unfold var at 1. cbn [eval]. rewrite (w_e _ _ _ _ I), method_written by exact GK. rewrite EP. f_equal.
  pose proof (value_at_noerr p i v) as N. pose proof (fun x => place_kind E t v p i x k t' TV P WT) as PK.
  destruct (value_at p i v) as [x|e|m]; cbn [rbind ewith]; [|now elim (N e)|reflexivity].
  destruct (PK x eq_refl) as (q & z & -> & ->). destruct (kind_dec k k); [reflexivity|congruence].
Qed.
Lemma wcode_marshal mar E fs ue ul name T t v p : lookup name fs = Some (t, v) -> 
  well_typed E t (SMarshal p) = true -> wcode mar E fs ue ul name T t v (SMarshal p) (index p).
Proof.
  intros F WT env i I IX. cbn [well_typed] in WT. destruct (place_type E p t) as [t'|] eqn:P; [|discriminate WT].
  cbn [go_code exec_write]. pose proof (eval_place E env fs name t v p i t' (w_v _ _ _ _ I) F P IX) as EP.
  match goal with |- esim _ _ ?q => apply (wchecked mar E fs ue ul env _ q I) end.
  cbn [call_write]. rewrite EP. pose proof (value_at_noerr p i v) as N.
  destruct (value_at p i v) as [x|e|m]; cbn [rbind ewith]; [|now elim (N e)|reflexivity].
  names. unfold var. cbn [eval]. rewrite (w_e _ _ _ _ I), P. f_equal.
  destruct t'; try reflexivity. destruct x as [| | |[y|]| | | | |]; reflexivity.
Qed.

Lemma wseq mar E fs ue ul env a b p q : esim (wres fs ue ul env) (wexec mar E env a) p ->
  (forall env', map fst env' = map fst env -> winv fs ue ul env' -> esim (wres fs ue ul env') (wexec mar E env' b) q) ->
  esim (wres fs ue ul env) (wexec mar E env (GSeq a b)) (etry p q).
Proof.
  intros A B. cbn [exec]. unfold etry. eapply esim_bind; [exact A|]. intros [env' r] e [K R]. destruct e as [e|].
  - subst r. constructor. now split.
  - destruct R as [-> I]. specialize (B env' K I). clear - B K. induction B as [[env2 r] e [K2 R]|m| |bs k k' H IH]; constructor; auto.
    split; [congruence|exact R].
Qed.
Lemma winv_cons fs ue ul env x v : same_text (str "v") x = false -> same_text (str "e") x = false -> same_text (str "err") x = false ->
  same_text (str "nil") x = false -> same_text (str "exists") x = false -> same_text (str "length") x = false ->
  winv fs ue ul ((x, v) :: env) <-> winv fs ue ul env.
Proof.
  intros A B C D F G. split; intros [a b c d f g].
  - cbn [lookup] in *. rewrite A in a. rewrite B in b. rewrite C in c. rewrite D in d. rewrite F in f. rewrite G in g. now constructor.
  - constructor; cbn [lookup]; rewrite ?A, ?B, ?C, ?D, ?F, ?G; assumption.
Qed.
Lemma winv_i fs ue ul env v : winv fs ue ul ((str "i", v) :: env) <-> winv fs ue ul env.
Proof. apply winv_cons; reflexivity. Qed.
Lemma leave_one (env env' : genv) x : map fst env' = x :: map fst env -> exists v, env' = (x, v) :: leave env env' /\ map fst (leave env env') = map fst env.
Proof.
  intros K. destruct env' as [|[y v] env']; [discriminate K|]. cbn [map fst] in K. injection K as -> K. exists v. unfold leave. cbn [length].
  pose proof (f_equal (@length _) K) as L. rewrite !map_length in L. rewrite L. replace (S (length env) - length env)%nat with 1%nat by lia.
  cbn [skipn]. split; [reflexivity|exact K].
Qed.
Lemma wloop mar E fs ue ul name T t v s need : wcode mar E fs ue ul name T t v s need -> forall n i env, winv fs ue ul env ->
  esim (wres fs ue ul env)
    (loop (M := enc) (fun A a => ERet a) (fun A B => @ebind A B) (fun i env =>
       env_r <~~ wexec mar E ((str "i", of_prim (PInt (Z.of_nat i))) :: env) (go_code name T s) ;;
       (let '(env', r) := env_r in ERet (leave env env', r))) n i env)
    (for_write (fun i => exec_write mar E t v i s) n i).
Proof.
  intros W n. induction n as [|n IH]; intros i env I; cbn [loop for_write].
  - constructor. split; [reflexivity|]. split; [reflexivity|exact I].
  - specialize (W ((str "i", of_prim (PInt (Z.of_nat i))) :: env) i (proj2 (winv_i _ _ _ _ _) I) ltac:(intros; reflexivity)).
    unfold etry. eapply esim_bind.
    + assert (X : esim (wres fs ue ul env)
        (env_r <~~ wexec mar E ((str "i", of_prim (PInt (Z.of_nat i))) :: env) (go_code name T s) ;; (let '(env', r) := env_r in ERet (leave env env', r)))
        (exec_write mar E t v i s)); [|exact X].
      clear - W. induction W as [[env2 r] e [K2 R]|m| |bs k k' H IH]; cbn [ebind]; constructor; auto.
      cbn [map fst] in K2. destruct (leave_one env env2 _ K2) as (z & Z & K). split; [exact K|]. destruct e as [e|]; [exact R|]. destruct R as [-> R].
      split; [reflexivity|]. apply (winv_i fs ue ul (leave env env2) z). rewrite <- Z. exact R.
    + intros [env2 r] e [K R]. destruct e as [e|]; [subst r; constructor; now split|]. destruct R as [-> I2].
      specialize (IH (S i) env2 I2). clear - IH K. induction IH as [[env3 r] e [K2 R]|m| |bs k k' H IH]; constructor; auto.
      split; [congruence|exact R].
Qed.
(** An assignment to a variable of a basic type. *)
Lemma wset mar E fs ue ul env x k y r (q : res prim) :
  (forall z, winv fs ue ul (update (str x) (VAt (TLeaf k) z) env)) -> lookup (str x) env = Some (VAt (TLeaf k) y) ->
  call_write mar E env r = None -> (forall T n, r <> EMake T n) ->
  eval E env r = rbind q (fun p => Ok (of_prim p)) -> (forall p, q = Ok p -> kind_of p = k) ->
  esim (fun '(env', o) (p : prim) => env' = update (str x) (of_prim p) env /\ o = None /\ q = Ok p /\ winv fs ue ul env')
    (wexec mar E env (GSet [var x] r)) (match q with Ok p => ERet p | Panic m => EPanic m | Err _ => EPanic "ill-typed" end).
Proof.
  intros I L C NM EV K. cbn [exec]. unfold set_vars. rewrite C.
  assert (X : match r with EMake T n => make_slice E env (var x) T n | _ => rbind (eval E env r) (fun v => store_all E env [var x] [v]) end
    = rbind (eval E env r) (fun v => store_all E env [var x] [v])) by (destruct r; try reflexivity; exfalso; eapply NM; reflexivity).
  rewrite X, EV. destruct q as [p|e|m]; cbn [rbind lift ebind]; [|constructor|constructor].
  cbn [store_all]. unfold store, var. cbn [eval]. rewrite L. cbn [rbind]. unfold of_prim. cbn [assignable]. rewrite (K p eq_refl).
  unfold is_kind. cbn [head]. destruct (kind_dec k k); [|congruence]. cbn [put]. rewrite L. cbn [rbind lift ebind].
  constructor. rewrite (K p eq_refl). split; [reflexivity|]. split; [reflexivity|]. split; [reflexivity|]. apply I.
Qed.
Lemma winv_update fs ue ul env x k z : str x = str "length" /\ k = KInt \/ str x = str "exists" /\ k = KBool ->
  winv fs ue ul env -> winv fs ue ul (update (str x) (VAt (TLeaf k) z) env).
Proof.
  intros X [a b c d f g]. destruct X as [[-> ->]|[-> ->]]; constructor; rewrite ?lookup_update; names; try assumption.
  - intros U. destruct (g U) as (y & ->). now eexists.
  - intros U. destruct (f U) as (y & ->). now eexists.
Qed.
Lemma wexec_seq mar E env a b : wexec mar E env (GSeq a b) = 
  (env_r <~~ wexec mar E env a ;; (let '(env, r) := env_r in match r with Some v => ERet (env, Some v) | None => wexec mar E env b end)).
Proof. reflexivity. Qed.
Lemma wcode_array mar E fs ue ul name T t v n s need : 0 <= n -> wcode mar E fs ue ul name T t v s need -> wcode mar E fs ue ul name T t v (SWriteArray n s) false.
Proof. intros N W env i I _. cbn [go_code exec exec_write]. cbn [eval of_prim]. now apply wloop with (need := need). Qed.
Lemma wcode_slice mar E fs ue name T t v p s need : lookup name fs = Some (t, v) -> index p = false ->
  match place_type E p t with Some t' => is_slice E t' | None => false end = true ->
  wcode mar E fs ue true name T t v s need -> wcode mar E fs ue true name T t v (SWriteSlice p s) false.
Proof.
  intros F IP SL W env i I _. cbn [go_code exec_write]. destruct (place_type E p t) as [t'|] eqn:P; [|discriminate SL].
  assert (EV : eval E env (if star p then EStar (fld name) else fld name) = rbind (value_at p i v) (fun x => Ok (VAt t' x))).
  { pose proof (eval_place E env fs name t v p i t' (w_v _ _ _ _ I) F P ltac:(congruence)) as X. unfold place_expr in X. rewrite IP in X.
    rewrite <- X. now destruct (star p). }
  destruct (w_len _ _ _ _ I eq_refl) as (y & L).
  pose proof (wset mar E fs ue true env "length" KInt y (ECall1 (var "len") (if star p then EStar (fld name) else fld name))
    (rbind (value_at p i v) (fun x => rbind (elements x) (fun l => Ok (PInt (zlen l)))))
    (fun z => winv_update fs ue true env "length" KInt z (or_introl (conj eq_refl eq_refl)) I) L eq_refl ltac:(discriminate)) as WS.
  assert (EV2 : eval E env (ECall1 (var "len") (if star p then EStar (fld name) else fld name)) =
    rbind (rbind (value_at p i v) (fun x => rbind (elements x) (fun l => Ok (PInt (zlen l))))) (fun p => Ok (of_prim p))).
  { unfold var. cbn [eval]. rewrite EV. pose proof (value_at_noerr p i v) as N. destruct (value_at p i v) as [x|e|m]; cbn [rbind]; [|now elim (N e)|reflexivity].
    names. rewrite SL. pose proof (elements_noerr x) as N2. destruct (elements x) as [l|e|m]; cbn [rbind]; [reflexivity|now elim (N2 e)|reflexivity]. }
  specialize (WS EV2). clear EV2.
  assert (K : forall p0 : prim, rbind (value_at p i v) (fun x => rbind (elements x) (fun l => Ok (PInt (zlen l)))) = Ok p0 -> kind_of p0 = KInt).
  { intros p0. destruct (value_at p i v) as [x|e|m]; cbn [rbind]; try discriminate. destruct (elements x) as [l|e|m]; cbn [rbind]; try discriminate.
    intros X. injection X as <-. reflexivity. }
  specialize (WS K). clear K.
  match goal with |- esim _ (exec _ _ _ _ _ _ (GSeq ?s1 ?s2)) _ => rewrite (wexec_seq mar E env s1 s2); set (B := s2) in *;
    revert WS; generalize (wexec mar E env s1); intros PA WS end.
  
  pose proof (value_at_noerr p i v) as N. destruct (value_at p i v) as [x|e|m] eqn:VA; cbn [rbind ewith] in *; [|now elim (N e)|].
  2: { inversion WS as [|? Q| |]; subst. constructor. }
  pose proof (elements_noerr x) as N2. destruct (elements x) as [l|e|m] eqn:EL; cbn [rbind ewith] in *; [|now elim (N2 e)|].
  2: { inversion WS as [|? Q| |]; subst. constructor. }
  inversion WS as [[env1 o] q (E1 & -> & _ & I1) Q|? Q| |]; try discriminate. subst q. cbn [ebind].
  assert (KE : map fst env1 = map fst env) by (rewrite E1; apply update_keys).
  assert (L1 : lookup (str "length") env1 = Some (of_prim (PInt (zlen l)))) by (rewrite E1, lookup_update; names; now rewrite L).
  apply (esim_weaken (wres fs ue true env1)); [intros [env2 r] e [K2 R]; split; [congruence|exact R]|].
  unfold B. cbn [exec]. unfold etry. eapply esim_bind.
  - apply (wchecked_exact mar E fs ue true env1 _ (WriteVaruint (zlen l)) I1). cbn [call_write]. unfold var. cbn [eval].
    rewrite (w_e _ _ _ _ I1), L1. cbn [rbind]. unfold of_prim. cbn [kind_of leaf_zero]. names. cbn [rbind].
    replace (zlen l <? 0) with false by (symmetry; apply Z.ltb_ge; unfold zlen; lia). reflexivity.
  - intros [env2 r] e [E2 ->]. destruct e as [e|]; [constructor; split; [rewrite E2; apply update_keys|reflexivity]|].
    unfold var. cbn [eval]. rewrite E2 at 1. rewrite lookup_update. names. rewrite L1. unfold of_prim. cbn [kind_of leaf_zero].
    replace (Z.to_nat (zlen l)) with (length l) by (unfold zlen; lia).
    assert (I2 : winv fs ue true env2) by (rewrite E2; now apply winv_err).
    eapply esim_weaken; [|exact (wloop mar E fs ue true name T t v s need W (length l) 0 env2 I2)].
    intros [env3 r] e [K3 R]. split; [|exact R]. rewrite K3, E2. apply update_keys.
Qed.
Lemma wcode_optional mar E fs ul name T t v opt s need : lookup name fs = Some (t, v) -> has_type E any_leaf t v ->
  match head E t with TPtr _ => true | _ => false end = true ->
  wcode mar E fs true ul name T t v s need -> need = false -> wcode mar E fs true ul name T t v (SWriteOptional opt s) false.
Proof.
  intros F TV HP W NN env i I _. subst need. cbn [go_code exec_write].
  assert (VP : exists o, v = RPtr o) by (destruct TV; rewrite H in HP; try discriminate HP; now eexists). destruct VP as (o & ->).
  destruct (w_ex _ _ _ _ I eq_refl) as (y & L). set (b := negb (is_zero (RPtr o))).
  pose proof (wset mar E fs true ul env "exists" KBool y (ENe (fld name) (var "nil")) (Ok (PBool b))
    (fun z => winv_update fs true ul env "exists" KBool z (or_intror (conj eq_refl eq_refl)) I) L eq_refl ltac:(discriminate)) as WS.
  assert (EV : eval E env (ENe (fld name) (var "nil")) = rbind (Ok (PBool b)) (fun p => Ok (of_prim p))).
  { cbn [eval]. rewrite (eval_field E env fs name t (RPtr o) (w_v _ _ _ _ I) F). cbn [rbind]. unfold var. cbn [eval]. rewrite (w_nil _ _ _ _ I). names. cbn [rbind].
    unfold b. now destruct o. }
  specialize (WS EV ltac:(intros p X; injection X as <-; reflexivity)). clear EV.
  match goal with |- esim _ (exec _ _ _ _ _ _ (GSeq ?s1 ?s2)) _ => rewrite (wexec_seq mar E env s1 s2); set (B := s2) in *;
    revert WS; generalize (wexec mar E env s1); intros PA WS end.
  inversion WS as [[env1 r] q (E1 & -> & _ & I1) Q|? Q| |]; try discriminate. subst q. cbn [ebind].
  assert (KE : map fst env1 = map fst env) by (rewrite E1; apply update_keys).
  assert (L1 : lookup (str "exists") env1 = Some (of_prim (PBool b))) by (rewrite E1, lookup_update; names; now rewrite L).
  apply (esim_weaken (wres fs true ul env1)); [intros [env2 r] e [K2 R]; split; [congruence|exact R]|].
  assert (BLK : forall env2, winv fs true ul env2 -> map fst env2 = map fst env1 -> esim (wres fs true ul env1)
    (env_r <~~ wexec mar E env2 (go_code name T s) ;; (let '(env', r) := env_r in ERet (leave env2 env', r))) (exec_write mar E t (RPtr o) i s)).
  { intros env2 I2 K2. specialize (W env2 i I2 ltac:(discriminate)). clear - W K2. induction W as [[env3 r] e [K3 R]|m| |bs k k' H IH]; cbn [ebind]; constructor; auto.
    rewrite leave_keys by exact K3. split; [congruence|exact R]. }
  unfold B. destruct opt.
  - cbn [exec]. unfold etry. eapply esim_bind.
    + apply (wchecked_exact mar E fs true ul env1 _ (WriteBool b) I1). cbn [call_write]. unfold var. cbn [eval].
      rewrite (w_e _ _ _ _ I1), L1. reflexivity.
    + intros [env2 r] e [E2 ->]. destruct e as [e|]; [constructor; split; [rewrite E2; apply update_keys|reflexivity]|].
      cbn [ebind]. unfold var. cbn [eval]. rewrite E2 at 1. rewrite lookup_update. names. rewrite L1. unfold of_prim. cbn [kind_of leaf_zero].
      assert (I2 : winv fs true ul env2) by (rewrite E2; now apply winv_err).
      assert (K2 : map fst env2 = map fst env1) by (rewrite E2; apply update_keys).
      destruct b; [now apply BLK|]. constructor. split; [exact K2|]. split; [reflexivity|exact I2].
  - cbn [exec]. unfold var at 1. cbn [eval]. rewrite L1. unfold of_prim. cbn [kind_of leaf_zero]. unfold etry. cbn [ebind].
    destruct b; [now apply BLK|]. unfold var. cbn [eval]. names. cbn [andb rbind lift ebind]. constructor.
    split; [now rewrite leave_keys|]. reflexivity.
Qed.

(** The marshal code of a field. *)
Definition wflag f := f_optional f || f_ptr f.
Definition lflag f := f_slice f || f_array f.
Lemma method_go text k : method_of text = Some k -> go_kind k = true.
Proof.
  unfold method_of. intros H.
  repeat match type of H with (if ?c then _ else _) = _ => destruct c; [injection H as <-; reflexivity|] end. discriminate H.
Qed.
Lemma wcode_field mar E fs ue ul name T t v f : lookup name fs = Some (t, v) -> has_type E any_leaf t v -> good_field f ->
  (wflag f = true -> ue = true) -> (f_slice f = true -> ul = true) -> well_typed E t (gen_write f) = true ->
  wcode mar E fs ue ul name T t v (gen_write f) false.
Proof.
  intros F TV (M & _ & L) UE UL WT. unfold gen_write in *.
  assert (B : forall need, need = f_slice f || f_array f -> forall code, 
    code = match f_method f with Some k => SWrite k {| star := f_ptr f; index := need |} | None => SMarshal {| star := f_ptr f && need; index := need |} end ->
    well_typed E t code = true -> wcode mar E fs ue ul name T t v code need).
  { intros need _ code -> W. destruct (f_method f) as [k|] eqn:FM.
    - exact (wcode_write mar E fs ue ul name T t v k {| star := f_ptr f; index := need |} F TV (method_go _ _ (eq_sym M)) W).
    - exact (wcode_marshal mar E fs ue ul name T t v {| star := f_ptr f && need; index := need |} F W). }
  specialize (B _ eq_refl _ eq_refl). set (code := match f_method f with Some k => _ | None => _ end) in *. clearbody code.
  assert (S : forall c, c = (if f_slice f then SWriteSlice {| star := f_ptr f; index := false |} code else code) -> well_typed E t c = true ->
    wcode mar E fs ue ul name T t v c (f_array f)).
  { intros c -> W. destruct (f_slice f) eqn:FS; [|exact (B W)]. cbn [well_typed] in W. apply andb_prop in W as [W1 W2]. rewrite (UL eq_refl) in *.
    pose proof (wcode_slice mar E fs ue name T t v {| star := f_ptr f; index := false |} code true F eq_refl W1 (B W2)) as X.
    intros env i I _. exact (X env i I ltac:(discriminate)). }
  specialize (S _ eq_refl). set (c1 := if f_slice f then _ else code) in *. clearbody c1. clear B.
  assert (A : forall c, c = (if f_array f then SWriteArray (f_len f) c1 else c1) -> well_typed E t c = true -> wcode mar E fs ue ul name T t v c false).
  { intros c -> W. destruct (f_array f); [|exact (S W)]. cbn [well_typed] in W. exact (wcode_array mar E fs ue ul name T t v (f_len f) c1 true L (S W)). }
  specialize (A _ eq_refl). set (c2 := if f_array f then _ else c1) in *. clearbody c2. clear S.
  unfold wflag in UE. destruct (f_optional f || f_ptr f); [|exact (A WT)].
  cbn [well_typed] in WT. apply andb_prop in WT as [W1 W2]. rewrite (UE eq_refl) in *.
  exact (wcode_optional mar E fs ul name T t v (f_optional f) c2 false F TV W1 (A W2) eq_refl).
Qed.

(** All the fields, one after the other. *)
Fixpoint wready (E : types) (all : list (ident * (gtype * rval))) (ue ul : bool) (nf : list (ident * field)) (gs : list (tag * visibility * gtype)) (l : list rval)
  : Prop :=
  match nf, gs, l with
  | [], [], [] => True
  | (name, f) :: nf, (_, t) :: gs, v :: l =>
      lookup name all = Some (t, v) /\ has_type E any_leaf t v /\ good_field f /\ (wflag f = true -> ue = true) /\ (f_slice f = true -> ul = true) /\
      well_typed E t (gen_write f) = true /\ wready E all ue ul nf gs l
  | _, _, _ => False
  end.
Lemma wfields mar E all ue ul nf gs l : wready E all ue ul nf gs l -> forall env, winv all ue ul env ->
  esim (wres all ue ul env) (wexec mar E env (sequence (map (fun '(name, f) => go_code name (type_tokens (f_type f)) (gen_write f)) nf)))
    (marshal_body mar E gs (map gen_write (map snd nf)) l).
Proof.
  revert gs l. induction nf as [|[name f] nf IH]; intros [|[tv t] gs] [|v l] R env I; cbn [wready] in R; try contradiction.
  - constructor. split; [reflexivity|]. split; [reflexivity|exact I].
  - destruct R as (F & TV & G & UE & UL & WT & R). cbn [map sequence marshal_body snd]. apply wseq.
    + exact (wcode_field mar E all ue ul name _ t v f F TV G UE UL WT env 0%nat I ltac:(discriminate)).
    + intros env' _ I'. exact (IH gs l R env' I').
Qed.
Definition wfn (nf : list (ident * field)) : gstmt := sequence (map (fun '(name, f) => go_code name (type_tokens (f_type f)) (gen_write f)) nf).
Lemma marshal_run mar E struct nf gs l fs all : receiver fs l = VFields all ->
  wready E all (existsb (fun '(_, f) => f_optional f || f_ptr f) nf) (existsb (fun '(_, f) => f_slice f || f_array f) nf) nf gs l ->
  esim eq (run_marshal mar E (marshal_func struct nf) fs l) (marshal_body mar E gs (map gen_write (map snd nf)) l).
Proof.
  intros RV R. unfold run_marshal, marshal_func. cbn [g_param g_recv g_body]. rewrite RV. fold (wfn nf).
  set (ue := existsb _ nf) in *. set (ul := existsb (fun '(_, f) => f_slice f || f_array f) nf) in *. unfold body.
  set (env0 := (if ul then [(str "length", VAt (TLeaf KInt) (RLeaf (zero_prim KInt) true))] else []) ++ (if ue then [(str "exists", VAt (TLeaf KBool) (RLeaf (zero_prim KBool) true))] else [])
    ++ [(str "err", VErr None); (str "e", VCodec); (str "v", VFields all)]).
  assert (X : wexec mar E [(str "e", VCodec); (str "v", VFields all)]
     (GSeq (GVar (str "err") [word "error"]) (GSeq (if ue then GVar (str "exists") [word "bool"] else GSkip)
        (GSeq (if ul then GVar (str "length") [word "int"] else GSkip) (GSeq (wfn nf) (GReturn (var "err"))))))
     = wexec mar E env0 (GSeq (wfn nf) (GReturn (var "err")))) by (unfold env0; destruct ue, ul; reflexivity).
  rewrite X. clear X.
  assert (I : winv all ue ul env0).
  { unfold env0. destruct ue, ul; constructor; try reflexivity; try discriminate; intros _; eexists; reflexivity. }
  clearbody env0. rewrite wexec_seq. pose proof (wfields mar E all ue ul nf gs l R env0 I) as W. fold (wfn nf) in W.
  induction W as [[env1 r] e [K Q]|m| |bs k k' H IH]; cbn [ebind]; [|constructor|constructor|constructor; exact IH].
  destruct e as [e|]; [subst r; constructor; reflexivity|]. destruct Q as [-> I1]. cbn [exec]. unfold var. cbn [eval].
  rewrite (w_err _ _ _ _ I1). cbn [rbind lift ebind]. constructor. reflexivity.
Qed.

(** ** UnmarshalABI *)
Notation rexec unm E := (exec (fun A a => DRet a) (fun A B => @dbind A B) (fun A => @DPanic A) (call_read unm E) E).
Notation rset unm E := (set_vars (fun A a => DRet a) (fun A B => @dbind A B) (fun A => @DPanic A) (call_read unm E) E).
Record rinv (ue ul : bool) (fs : list (ident * (gtype * rval))) (env : genv) : Prop := {
  r_v : lookup (str "v") env = Some (VFields fs);
  r_d : lookup (str "d") env = Some VCodec;
  r_err : lookup (str "err") env = Some (VErr None);
  r_nil : lookup (str "nil") env = None;
  r_ex : ue = true -> exists x, lookup (str "exists") env = Some (VAt (TLeaf KBool) x);
  r_len : ul = true -> exists x, lookup (str "length") env = Some (VAt (TLeaf KUint) x) }.
Definition more (env0 env : genv) : Prop := exists n, map fst env = repeat (str "tmp") n ++ map fst env0.
Definition rres ue ul (fs : list (ident * (gtype * rval))) name (t : gtype) (env0 : genv) : genv * option gval -> rval * option gerr -> Prop :=
  fun '(env, r) '(v, e) =>
  more env0 env /\ match e with
                  | Some x => r = Some (VErr (Some x)) /\ lookup (str "v") env = Some (VFields (update name (t, v) fs))
                  | None => r = None /\ rinv ue ul (update name (t, v) fs) env
                  end.
Lemma dsim_weaken {A B} (R S : A -> B -> Prop) p q : (forall a b, R a b -> S a b) -> dsim R p q -> dsim S p q.
Proof. intros W H. induction H; constructor; auto. Qed.
Lemma rexec_seq unm E env a b : rexec unm E env (GSeq a b) =
  (env_r <-- rexec unm E env a ;; (let '(env, r) := env_r in match r with Some v => DRet (env, Some v) | None => rexec unm E env b end)).
Proof. reflexivity. Qed.
Lemma update_same {A} x (v : A) l : lookup x l = Some v -> update x v l = l.
Proof.
  induction l as [|[y w] l IH]; [discriminate|]. cbn [lookup update]. destruct (same_text x y); intros H; [now injection H as ->|]. now rewrite IH.
Qed.
Lemma update_update {A} x (v w : A) l : update x v (update x w l) = update x v l.
Proof.
  induction l as [|[y u] l IH]; [reflexivity|]. cbn [update]. destruct (same_text x y) eqn:E; cbn [update]; rewrite E; [reflexivity|now rewrite IH].
Qed.
Lemma more_refl env : more env env.
Proof. now exists 0%nat. Qed.
Lemma more_trans a b c : more a b -> more b c -> more a c.
Proof. intros [n H] [m K]. exists (m + n)%nat. now rewrite K, H, repeat_app, app_assoc. Qed.
Lemma more_keys a b : map fst b = map fst a -> more a b.
Proof. intros H. now exists 0%nat. Qed.
Lemma lookup_skip x n (env : genv) k : map fst env = repeat (str "tmp") n ++ k -> same_text x (str "tmp") = false -> lookup x (skipn n env) = lookup x env.
Proof.
  intros K N. revert env K. induction n as [|n IH]; intros env K; [reflexivity|]. destruct env as [|[y v] env]; [discriminate K|].
  cbn [repeat app map fst] in K. injection K as -> K. cbn [skipn lookup]. rewrite N. exact (IH env K).
Qed.
Lemma more_leave env0 env : more env0 env -> map fst (leave env0 env) = map fst env0 /\ (forall x, same_text x (str "tmp") = false -> lookup x (leave env0 env) = lookup x env).
Proof.
  intros [n K]. assert (L : (length env - length env0 = n)%nat).
  { apply (f_equal (@length _)) in K. rewrite app_length, repeat_length, !map_length in K. lia. }
  unfold leave. rewrite L. split; [|intros x N; exact (lookup_skip x n env _ K N)].
  rewrite <- skipn_map, K. rewrite skipn_app, repeat_length, Nat.sub_diag, skipn_all2 by (rewrite repeat_length; lia). reflexivity.
Qed.
Lemma rinv_lookup ue ul fs env env' : (forall x, same_text x (str "tmp") = false -> same_text x (str "i") = false -> lookup x env' = lookup x env) -> rinv ue ul fs env -> rinv ue ul fs env'.
Proof. intros H [a b c d f g]. constructor; rewrite ?H by reflexivity; assumption. Qed.
Lemma rinv_leave ue ul fs env0 env : more env0 env -> rinv ue ul fs env -> rinv ue ul fs (leave env0 env).
Proof. intros M. apply rinv_lookup. intros x N _. now apply more_leave. Qed.

Lemma dsim_map {A B C} (R : A -> B -> Prop) (S : C -> B -> Prop) p q (f : A -> dec C) :
  dsim R p q -> (forall a b, R a b -> exists c, f a = DRet c /\ S c b) -> dsim S (dbind p f) q.
Proof.
  intros H F. induction H as [a b H|m| |n k k' H IH|k k' H IH]; cbn [dbind]; try (constructor; assumption).
  destruct (F a b H) as (c & -> & X). now constructor.
Qed.
Lemma rchecked {A} unm E env l r (q : io A) (S : genv -> A -> option gerr -> Prop) :
  (forall env' x e, S env' x e -> lookup (str "err") env' = Some (VErr e) /\ lookup (str "nil") env' = None) ->
  dsim (fun env' '(x, e) => S env' x e) (rset unm E env l r) q ->
  dsim (fun '(env', o) '(x, e) => S env' x e /\ o = match e with Some x => Some (VErr (Some x)) | None => None end) (rexec unm E env (checked l r)) q.
Proof.
  intros HS D. unfold checked. cbn [exec]. induction D as [env' [x e] H|m| |n k k' H IH|k k' H IH]; cbn [dbind];
    [|constructor|constructor|constructor; exact IH|constructor; exact IH].
  unfold var. cbn [eval]. destruct (HS _ _ _ H) as [L N]. rewrite L, N. names. cbn [rbind]. unfold of_prim. cbn [kind_of leaf_zero].
  destruct e as [e|].
  - cbn [exec eval]. rewrite ?L. cbn [rbind lift dbind]. constructor. rewrite leave_keys by reflexivity. now split.
  - constructor. now split.
Qed.
Lemma read_kind k : go_kind k = true -> k <> KGoBytes ->
  dsim (fun a b => a = b /\ kind_of (fst a) = k) (read_prim (zero_prim k)) (read_prim (zero_prim k)).
Proof.
  assert (G : forall A (c : A -> prim) (p : io A), (forall x, kind_of (c x) = k) -> dsim (fun a b => a = b /\ kind_of (fst a) = k) (wrap c p) (wrap c p)).
  { intros A c p H. unfold wrap. eapply dsim_bind; [apply dsim_refl|]. intros [x e] ? <-. constructor. split; [reflexivity|apply H]. }
  intros GK NB. destruct k; try discriminate GK; try congruence; cbn [zero_prim read_prim]; apply G; reflexivity.
Qed.

Lemma method_call (env : genv) k : go_kind k = true -> k <> KGoBytes ->
  dsim (fun '(env', vs) '(q, e) => env' = env /\ vs = [of_prim q; VErr e] /\ kind_of q = k)
    ('(p, err) <-- read_prim (zero_prim k) ;; DRet (env, [of_prim p; VErr err])) (read_prim (zero_prim k)).
Proof.
  intros GK NB. eapply dsim_map; [apply (read_kind k GK NB)|]. intros [q e] ? [<- KQ]. eexists. split; [reflexivity|]. now repeat split.
Qed.
(** Storing into a place. *)
Definition fields_to fs name (t : gtype) (env : genv) v : genv := update (str "v") (VFields (update name (t, v) fs)) env.
Lemma put_field E ue ul fs env name t v y : rinv ue ul fs env -> lookup name fs = Some (t, v) -> put E env (fld name) y = Ok (fields_to fs name t env y).
Proof. intros I F. unfold fld, var. cbn [put]. now rewrite (r_v _ _ _ _ I), F. Qed.
Lemma assign_value ix i v y : match value_at {| star := false; index := ix |} i v with
  | Ok _ => exists v', assign ix i v y = Ok v' | Panic m => assign ix i v y = Panic m | Err _ => True end.
Proof.
  unfold value_at, assign. cbn [star index rbind]. destruct ix; [|now exists y].
  destruct (elements v) as [l|e|m]; cbn [rbind]; [|exact I|reflexivity]. destruct (nth_error l i) as [x|] eqn:N.
  - assert (L : (i < length l)%nat) by (apply nth_error_Some; congruence). apply Nat.ltb_lt in L. rewrite L. now eexists.
  - apply nth_error_None, Nat.ltb_ge in N. now rewrite N.
Qed.
Lemma put_place E ue ul fs env name t v p i y x t' : rinv ue ul fs env -> lookup name fs = Some (t, v) -> place_type E p t = Some t' ->
  (index p = true -> has_index i env) -> value_at p i v = Ok x ->
  put E env (place_expr name p) y = rbind (assign_star p i v y) (fun v' => Ok (fields_to fs name t env v')).
Proof.
  intros I F P IX VA. destruct p as [st ix]. unfold place_expr, assign_star. cbn [star index] in *.
  pose proof (eval_field E env fs name t v (r_v _ _ _ _ I) F) as EF.
  assert (IV : ix = true -> eval E env (var "i") = Ok (of_prim (PInt (Z.of_nat i)))) by (intros X; unfold var; cbn [eval]; now rewrite (IX X)).
  unfold place_type in P. cbn [star index] in P.
  destruct st.
  - destruct (head E t) as [| | |u| | | | | |] eqn:H; try discriminate P.
    pose proof (eval_star E env fs name t v u (r_v _ _ _ _ I) F H) as ES.
    unfold value_at in VA, ES. cbn [star index] in VA, ES. destruct v as [| | |[y0|]| | | | |]; cbn [rbind] in VA, ES; try discriminate VA.
    assert (PS : forall z, put E env (EParen (EStar (fld name))) z = Ok (fields_to fs name t env (RPtr (Some z)))).
    { intros z. cbn [put]. rewrite EF. cbn [rbind]. exact (put_field E ue ul fs env name t _ _ I F). }
    destruct ix.
    + cbn [put]. change (eval E env (EParen (EStar (fld name)))) with (eval E env (EStar (fld name))). rewrite ES, (IV eq_refl). cbn [rbind].
      unfold of_prim. cbn [kind_of leaf_zero]. rewrite Nat2Z.id. destruct (assign true i y0 y) as [z|e|m]; cbn [rbind]; try reflexivity. apply PS.
    + rewrite PS. reflexivity.
  - destruct ix.
    + cbn [put]. rewrite EF, (IV eq_refl). cbn [rbind].
      unfold of_prim. cbn [kind_of leaf_zero]. rewrite Nat2Z.id. destruct (assign true i v y) as [z|e|m]; cbn [rbind]; try reflexivity.
      exact (put_field E ue ul fs env name t _ _ I F).
    + cbn [assign rbind]. exact (put_field E ue ul fs env name t _ _ I F).
Qed.
Lemma store_place E ue ul fs env name t v ix i y u t' : rinv ue ul fs env -> lookup name fs = Some (t, v) -> place_type E {| star := false; index := ix |} t = Some t' ->
  (ix = true -> has_index i env) -> assignable E t' u = true ->
  store E env (place_expr name {| star := false; index := ix |}) (VAt u y) = rbind (assign ix i v y) (fun v' => Ok (fields_to fs name t env v')).
Proof.
  intros I F P IX AS. unfold store. rewrite (eval_place E env fs name t v _ i t' (r_v _ _ _ _ I) F P IX).
  pose proof (assign_value ix i v y) as AV. pose proof (value_at_noerr {| star := false; index := ix |} i v) as N.
  destruct (value_at _ i v) as [x|e|m] eqn:VA; cbn [rbind]; [|now elim (N e)|now rewrite AV].
  rewrite AS. exact (put_place E ue ul fs env name t v _ i y x t' I F P IX VA).
Qed.
Lemma fields_to_rinv ue ul fs env name t v : rinv ue ul fs env -> rinv ue ul (update name (t, v) fs) (fields_to fs name t env v).
Proof.
  intros [a b c d f g]. unfold fields_to. constructor; rewrite lookup_update; names; try assumption. now rewrite a.
Qed.
Lemma set_err ue ul fs env : rinv ue ul fs env -> rinv ue ul fs (update (str "err") (VErr None) env).
Proof.
  intros [a b c d f g]. constructor; rewrite ?lookup_update; names; try assumption. now rewrite c.
Qed.
Lemma assign_noerr ix i v y e : assign ix i v y <> Err e.
Proof.
  unfold assign. destruct ix; [|discriminate]. pose proof (elements_noerr v) as N. destruct (elements v) as [l|e'|m]; cbn [rbind]; [|now elim (N e')|discriminate].
  destruct (i <? length l)%nat; discriminate.
Qed.
Lemma assign_star_noerr p i v y e : assign_star p i v y <> Err e.
Proof.
  unfold assign_star. destruct (star p); [|apply assign_noerr]. destruct v as [| | |[z|]| | | | |]; try discriminate.
  pose proof (assign_noerr (index p) i z y) as N. destruct (assign (index p) i z y) as [x|e'|m]; cbn [rbind]; [discriminate|now elim (N e')|discriminate].
Qed.

Definition rcode (unm : gtype -> rval -> io rval) (E : types) (ue ul : bool) (name : ident) (T : list token) (t : gtype) (s : stmt) (need : bool) : Prop :=
  forall fs env i v, rinv ue ul fs env -> lookup name fs = Some (t, v) -> (need = true -> has_index i env) ->
  dsim (rres ue ul fs name t env) (rexec unm E env (go_code name T s)) (exec_read unm E t i s v).
(** A call of a reading method. *)
Lemma call_method unm E ue ul fs env k : rinv ue ul fs env -> go_kind k = true -> k <> KGoBytes ->
  call_read unm E env (ECall0 (ESel (var "d") (str "Read" ++ method_name k))) =
  Some ('(p, err) <-- read_prim (zero_prim k) ;; DRet (env, [of_prim p; VErr err])).
Proof.
  intros I GK NB. cbn [call_read]. unfold var. cbn [eval]. rewrite (r_d _ _ _ _ I), method_read by exact GK.
  destruct k; try reflexivity. congruence.
Qed.
Lemma rcode_read unm E ue ul name T t k ix : go_kind k = true -> well_typed E t (SRead k {| star := false; index := ix |}) = true ->
  rcode unm E ue ul name T t (SRead k {| star := false; index := ix |}) ix.
Proof.
  intros GK WT fs env i v I F IX. assert (NB : k <> KGoBytes) by (intros ->; discriminate WT).
  assert (WT' : match place_type E {| star := false; index := ix |} t with Some t' => is_kind E k t' | None => false end = true)
    by (destruct k; try exact WT; congruence). clear WT.
  destruct (place_type E _ t) as [t'|] eqn:P; [|discriminate WT'].
  cbn [go_code exec_read index].
  eapply dsim_weaken; [|apply (rchecked unm E env _ _ _
    (fun env' v' e => map fst env' = map fst env /\ lookup (str "err") env' = Some (VErr e) /\ lookup (str "nil") env' = None /\
       lookup (str "v") env' = Some (VFields (update name (t, v') fs)) /\ (e = None -> rinv ue ul (update name (t, v') fs) env')))].
  - intros [env' o] [v' e] [(K & _ & _ & V & R) ->]. split; [now apply more_keys|]. destruct e as [e|]; split; auto.
  - intros env' x e (_ & A & B & _). now split.
  - unfold set_vars. rewrite (call_method unm E ue ul fs env k I GK NB).
    eapply dsim_bind; [apply (method_call env k GK NB)|].
    intros [env' vs] [q e] (-> & -> & KQ). cbn [store_all].
    assert (AS : assignable E t' (TLeaf (kind_of q)) = true) by (cbn [assignable]; now rewrite KQ).
    unfold of_prim. rewrite (store_place E ue ul fs env name t v ix i _ _ t' I F P IX AS).
    pose proof (assign_noerr ix i v (RLeaf q (leaf_zero q))) as N.
    destruct (assign ix i v (RLeaf q (leaf_zero q))) as [v'|e'|m]; cbn [rbind dwith lift]; [|now elim (N e')|constructor].
    pose proof (fields_to_rinv ue ul fs env name t v' I) as I2. unfold store, var. cbn [eval]. rewrite (r_err _ _ _ _ I2). cbn [rbind lift]. constructor.
    unfold fields_to in *. split; [now rewrite !update_keys|]. split; [rewrite !lookup_update; names; now rewrite (r_err _ _ _ _ I)|].
    split; [rewrite !lookup_update; names; now rewrite (r_nil _ _ _ _ I)|]. split; [rewrite !lookup_update; names; now rewrite (r_v _ _ _ _ I)|].
    intros ->. now apply set_err.
Qed.

Lemma rcode_unmarshal unm E ue ul name T t p : well_typed E t (SUnmarshal p) = true -> rcode unm E ue ul name T t (SUnmarshal p) (index p).
Proof.
  intros WT fs env i v I F IX. cbn [well_typed] in WT. destruct (place_type E p t) as [t'|] eqn:P; [|discriminate WT].
  cbn [go_code exec_read]. rewrite P.
  eapply dsim_weaken; [|apply (rchecked unm E env _ _ _
    (fun env' v' e => map fst env' = map fst env /\ lookup (str "err") env' = Some (VErr e) /\ lookup (str "nil") env' = None /\
       lookup (str "v") env' = Some (VFields (update name (t, v') fs)) /\ (e = None -> rinv ue ul (update name (t, v') fs) env')))].
  - intros [env' o] [v' e] [(K & _ & _ & V & R) ->]. split; [now apply more_keys|]. destruct e as [e|]; split; auto.
  - intros env' x e (_ & A & B & _). now split.
  - unfold set_vars. cbn [call_read]. rewrite (eval_place E env fs name t v p i t' (r_v _ _ _ _ I) F P IX).
    pose proof (value_at_noerr p i v) as N. destruct (value_at p i v) as [x|e|m] eqn:VA; cbn [rbind dwith]; [|now elim (N e)|cbn [dbind]; constructor].
    names. unfold var at 1. cbn [eval]. rewrite (r_d _ _ _ _ I).
    set (done := fun y err => match put E env (place_expr name p) y with
      | Ok env => DRet (env, [VErr err]) | Panic m => DPanic m | Err _ => DPanic "ill-typed" end).
    assert (ST : forall y e, dsim (fun env' '(v', e) => map fst env' = map fst env /\ lookup (str "err") env' = Some (VErr e) /\ lookup (str "nil") env' = None /\
       lookup (str "v") env' = Some (VFields (update name (t, v') fs)) /\ (e = None -> rinv ue ul (update name (t, v') fs) env'))
      ('(env, vs) <-- done y e ;; lift (M := dec) (fun A a => DRet a) (fun A => @DPanic A) (store_all E env [EVar (str "err")] vs))
      (dwith (assign_star p i v y) (fun v => DRet (v, e)))).
    { intros y e. unfold done. rewrite (put_place E ue ul fs env name t v p i y x t' I F P IX VA).
      pose proof (assign_star_noerr p i v y) as N2.
      destruct (assign_star p i v y) as [v'|e'|m]; cbn [rbind dwith dbind]; [|now elim (N2 e')|constructor].
      pose proof (fields_to_rinv ue ul fs env name t v' I) as I2. cbn [store_all]. unfold store. cbn [eval]. rewrite (r_err _ _ _ _ I2). cbn [rbind lift]. constructor.
      unfold fields_to in *. split; [now rewrite !update_keys|]. split; [rewrite !lookup_update; names; now rewrite (r_err _ _ _ _ I)|].
      split; [rewrite !lookup_update; names; now rewrite (r_nil _ _ _ _ I)|]. split; [rewrite !lookup_update; names; now rewrite (r_v _ _ _ _ I)|].
      intros ->. now apply set_err. }
    assert (GO : forall u z c, dsim (fun env' '(v', e) => map fst env' = map fst env /\ lookup (str "err") env' = Some (VErr e) /\ lookup (str "nil") env' = None /\
       lookup (str "v") env' = Some (VFields (update name (t, v') fs)) /\ (e = None -> rinv ue ul (update name (t, v') fs) env'))
      ('(env, vs) <-- ('(y, err) <-- unm u z ;; done (c y) err) ;; lift (M := dec) (fun A a => DRet a) (fun A => @DPanic A) (store_all E env [EVar (str "err")] vs))
      ('(y, err) <-- unm u z ;; dwith (assign_star p i v (c y)) (fun v => DRet (v, err)))).
    { intros u z c. induction (unm u z) as [[y e]|m| |n k IH|k IH]; cbn [dbind]; [apply ST|constructor|constructor|constructor; exact IH|constructor; exact IH]. }
    destruct t'; try exact (GO _ x (fun y => y)). destruct x as [| | |[y|]| | | | |]; try exact (GO _ _ (fun y => y)); [exact (GO _ y (fun y => RPtr (Some y)))|constructor].
Qed.

(** Reading into a variable of a basic type. *)
Lemma read_variable unm E ue ul fs env x k y : rinv ue ul fs env -> go_kind k = true -> k <> KGoBytes -> lookup (str x) env = Some (VAt (TLeaf k) y) ->
  same_text (str x) (str "err") = false -> same_text (str x) (str "nil") = false -> same_text (str "err") (str x) = false -> same_text (str "nil") (str x) = false ->
  dsim (fun '(env', o) '(q, e) => env' = update (str "err") (VErr e) (update (str x) (of_prim q) env) /\ kind_of q = k /\
         o = match e with Some z => Some (VErr (Some z)) | None => None end)
    (rexec unm E env (checked [var x; var "err"] (ECall0 (ESel (var "d") (str "Read" ++ method_name k))))) (read_prim (zero_prim k)).
Proof.
  intros I GK NB L X1 X2 X3 X4.
  eapply dsim_weaken; [|apply (rchecked unm E env _ _ _
    (fun env' q e => env' = update (str "err") (VErr e) (update (str x) (of_prim q) env) /\ kind_of q = k))].
  - intros [env' o] [q e] [[A B] C]. now repeat split.
  - intros env' q e [-> _]. rewrite !lookup_update. names. rewrite X3, X4, (r_err _ _ _ _ I), (r_nil _ _ _ _ I). split; reflexivity.
  - unfold set_vars. rewrite (call_method unm E ue ul fs env k I GK NB).
    eapply dsim_map; [apply (method_call env k GK NB)|]. intros [env' vs] [q e] (-> & -> & KQ). cbn [store_all].
    unfold store at 1, var. cbn [eval]. rewrite L. cbn [rbind]. unfold of_prim. cbn [assignable]. unfold is_kind. cbn [head]. rewrite KQ.
    destruct (kind_dec k k); [|congruence]. cbn [put]. rewrite L. cbn [rbind]. unfold store. cbn [eval]. rewrite lookup_update, X3, (r_err _ _ _ _ I).
    cbn [rbind lift]. eexists. split; [reflexivity|]. now split.
Qed.
Lemma rinv_tmp ue ul fs env v : rinv ue ul fs env -> rinv ue ul fs ((str "tmp", v) :: env).
Proof. apply rinv_lookup. intros x N _. cbn [lookup]. now rewrite N. Qed.
Lemma rcode_tmp unm E ue ul name T t k ix z : go_kind k = true -> well_typed E t (SReadTmp k {| star := false; index := ix |}) = true ->
  zero_value T = Some (VAt (TLeaf k) z) -> rcode unm E ue ul name T t (SReadTmp k {| star := false; index := ix |}) ix.
Proof.
  intros GK WT ZT fs env i v I F IX. assert (NB : k <> KGoBytes) by (intros ->; discriminate WT).
  assert (WT' : match place_type E {| star := false; index := ix |} t with
     | Some t' => match head E t' with TPtr t' => is_kind E k t' | _ => false end | None => false end = true)
    by (destruct k; try exact WT; congruence). clear WT.
  destruct (place_type E _ t) as [t'|] eqn:P; [|discriminate WT'].
  cbn [go_code exec_read index]. rewrite !rexec_seq. cbn [exec]. rewrite ZT. cbn [dbind].
  set (env1 := (str "tmp", VAt (TLeaf k) z) :: env). assert (I1 : rinv ue ul fs env1) by now apply rinv_tmp.
  eapply dsim_bind; [exact (read_variable unm E ue ul fs env1 "tmp" k z I1 GK NB eq_refl eq_refl eq_refl eq_refl eq_refl)|].
  intros [env2 o] [q e] (E2 & KQ & ->).
  assert (I2 : e = None -> rinv ue ul fs env2).
  { intros ->. rewrite E2. apply set_err. eapply rinv_lookup; [|exact I]. intros x N _. rewrite lookup_update, N. unfold env1. cbn [lookup]. now rewrite N. }
  assert (M2 : more env env2) by (rewrite E2; exists 1%nat; rewrite !update_keys; reflexivity).
  destruct e as [e|].
  - constructor. split; [exact M2|]. split; [reflexivity|]. rewrite update_same by exact F. rewrite E2, !lookup_update. names. exact (r_v _ _ _ _ I).
  - specialize (I2 eq_refl). cbn [exec]. unfold set_vars.
    assert (L2 : lookup (str "tmp") env2 = Some (of_prim q)) by (rewrite E2, !lookup_update; names; reflexivity).
    assert (IX2 : ix = true -> has_index i env2).
    { intros X. specialize (IX X). unfold has_index in *. rewrite E2, !lookup_update. names. exact IX. }
    cbn [call_read]. unfold var. cbn [eval]. rewrite L2. cbn [rbind of_prim]. cbn [store_all].
    assert (AS : assignable E t' (TPtr (TLeaf (kind_of q))) = true).
    { cbn [assignable]. rewrite KQ. destruct (head E t'); try discriminate WT'. exact WT'. }
    rewrite (store_place E ue ul fs env2 name t v ix i _ _ t' I2 F P IX2 AS).
    pose proof (assign_noerr ix i v (RPtr (Some (RLeaf q (leaf_zero q))))) as N.
    destruct (assign ix i v (RPtr (Some (RLeaf q (leaf_zero q))))) as [v'|e'|m]; cbn [rbind dwith lift dbind]; [|now elim (N e')|constructor].
    constructor. split; [|split; [reflexivity|]].
    + eapply more_trans; [exact M2|]. apply more_keys. unfold fields_to. apply update_keys.
    + now apply fields_to_rinv.
Qed.
Lemma rres_more ue ul fs name t env env1 p q : more env env1 -> dsim (rres ue ul fs name t env1) p q -> dsim (rres ue ul fs name t env) p q.
Proof. intros M. apply dsim_weaken. intros [env2 r] [v e] [M2 R]. split; [exact (more_trans _ _ _ M M2)|exact R]. Qed.
(** A block: the variables declared in it are gone behind it. *)
Lemma rblock ue ul fs name t env env1 p q : map fst env1 = map fst env -> dsim (rres ue ul fs name t env1) p q ->
  dsim (rres ue ul fs name t env) (env_r <-- p ;; (let '(env', r) := env_r in DRet (leave env1 env', r))) q.
Proof.
  intros K D. eapply dsim_map; [exact D|]. intros [env2 r] [v e] [M R]. eexists. split; [reflexivity|].
  destruct (more_leave _ _ M) as [K2 L2]. split; [apply more_keys; congruence|]. destruct e as [e|].
  - destruct R as [-> V]. split; [reflexivity|]. rewrite L2 by reflexivity. exact V.
  - destruct R as [-> I]. split; [reflexivity|]. now apply rinv_leave.
Qed.
Lemma skip_more {A} n (l : list A) : skipn (S n) l = skipn 1 (skipn n l).
Proof. revert l. induction n as [|n IH]; intros l; [reflexivity|]. destruct l as [|x l]; [reflexivity|]. exact (IH l). Qed.
Lemma rloop unm E ue ul name T t s need : rcode unm E ue ul name T t s need -> forall n i fs env v, rinv ue ul fs env -> lookup name fs = Some (t, v) ->
  dsim (rres ue ul fs name t env)
    (loop (M := dec) (fun A a => DRet a) (fun A B => @dbind A B) (fun i env =>
       env_r <-- rexec unm E ((str "i", of_prim (PInt (Z.of_nat i))) :: env) (go_code name T s) ;;
       (let '(env', r) := env_r in DRet (leave env env', r))) n i env)
    (for_read (fun i v => exec_read unm E t i s v) n i v).
Proof.
  intros W n. induction n as [|n IH]; intros i fs env v I F; cbn [loop for_read].
  - constructor. split; [apply more_refl|]. split; [reflexivity|]. now rewrite update_same.
  - set (env1 := (str "i", of_prim (PInt (Z.of_nat i))) :: env).
    assert (I1 : rinv ue ul fs env1).
    { eapply rinv_lookup; [|exact I]. intros x _ N. unfold env1. cbn [lookup]. now rewrite N. }
    specialize (W fs env1 i v I1 F ltac:(intros; reflexivity)).
    eapply (dsim_bind (rres ue ul fs name t env)).
    + eapply dsim_map; [exact W|]. intros [env2 r] [v' e] [M R]. eexists. split; [reflexivity|].
      destruct M as [m K]. unfold env1 in K. cbn [map fst] in K.
      assert (L : (length env2 - length env = S m)%nat).
      { apply (f_equal (@length _)) in K. rewrite app_length, repeat_length in K. cbn [length] in K. rewrite !map_length in K. lia. }
      assert (LK : forall x, same_text x (str "tmp") = false -> same_text x (str "i") = false -> lookup x (leave env env2) = lookup x env2).
      { intros x N1 N2. unfold leave. rewrite L. rewrite <- (lookup_skip x m env2 _ K N1).
        pose proof (f_equal (skipn m) K) as K'. rewrite skipn_map, skipn_app, repeat_length, Nat.sub_diag, (skipn_all2 (repeat (str "tmp") m)) in K' by (rewrite repeat_length; lia).
        cbn [skipn app] in K'. rewrite skip_more.
        destruct (skipn m env2) as [|[y w] rest]; [discriminate K'|]. cbn [map fst] in K'. injection K' as -> _. cbn [skipn lookup]. now rewrite N2. }
      assert (KL : map fst (leave env env2) = map fst env).
      { unfold leave. rewrite L, <- skipn_map, K, skipn_app, repeat_length. rewrite skipn_all2 by (rewrite repeat_length; lia).
        replace (S m - m)%nat with 1%nat by lia. reflexivity. }
      split; [now apply more_keys|]. destruct e as [e|].
      * destruct R as [-> V]. split; [reflexivity|]. now rewrite LK.
      * destruct R as [-> R]. split; [reflexivity|]. eapply rinv_lookup; [exact LK|exact R].
    + intros [env2 r] [v' e] [M R]. destruct e as [e|]; [destruct R as [-> R]; constructor; now repeat split|]. destruct R as [-> I2].
      apply (rres_more _ _ _ _ _ env env2 _ _ M).
      assert (F2 : lookup name (update name (t, v') fs) = Some (t, v')) by (rewrite lookup_update, same_text_refl, F; reflexivity).
      eapply dsim_weaken; [|exact (IH (S i) _ env2 v' I2 F2)]. intros [env3 r] [v2 e]. unfold rres. now rewrite update_update.
Qed.
Lemma rcode_array unm E ue ul name T t n s need : rcode unm E ue ul name T t s need -> rcode unm E ue ul name T t (SReadArray n s) false.
Proof. intros W fs env i v I F _. cbn [go_code exec exec_read eval of_prim]. now apply rloop with (need := need). Qed.

Lemma dsim_trans {A B C} (R : A -> B -> Prop) (S : B -> C -> Prop) p q r : dsim R p q -> dsim S q r -> dsim (fun a c => exists b, R a b /\ S b c) p r.
Proof.
  intros H. revert r. induction H as [a b H|m| |n k k' H IH|k k' H IH]; intros r K; inversion K; subst; constructor; eauto.
Qed.
Lemma read_wrapped {A} (c : A -> prim) (p : io A) : dsim (fun '(q, e) '(x, e') => q = c x /\ e = e') (wrap c p) p.
Proof. unfold wrap. eapply dsim_map; [apply dsim_refl|]. intros [x e] ? <-. eexists. split; [reflexivity|]. now split. Qed.
Lemma rinv_update ue ul fs env x k z : str x = str "length" /\ k = KUint \/ str x = str "exists" /\ k = KBool ->
  rinv ue ul fs env -> rinv ue ul fs (update (str x) (VAt (TLeaf k) z) env).
Proof.
  intros X [a b c d f g]. destruct X as [[-> ->]|[-> ->]]; constructor; rewrite ?lookup_update; names; try assumption.
  - intros U. destruct (g U) as (y & ->). now eexists.
  - intros U. destruct (f U) as (y & ->). now eexists.
Qed.
Lemma rcode_optional unm E ul name T t s need : need = false -> rcode unm E true ul name T t s need -> rcode unm E true ul name T t (SReadOptional s) false.
Proof.
  intros -> W fs env i v I F _. cbn [go_code exec_read]. rewrite rexec_seq. destruct (r_ex _ _ _ _ I eq_refl) as (y & L).
  pose proof (read_variable unm E true ul fs env "exists" KBool y I eq_refl ltac:(discriminate) L eq_refl eq_refl eq_refl eq_refl) as RV.
  pose proof (dsim_trans _ _ _ _ _ RV (read_wrapped PBool ReadBool)) as D. clear RV.
  change (str "Read" ++ method_name KBool) with (str "ReadBool") in D.
  eapply dsim_bind; [exact D|]. intros [env1 o] [b e] ([q e'] & (E1 & _ & ->) & -> & ->).
  assert (M1 : map fst env1 = map fst env) by (rewrite E1, !update_keys; reflexivity).
  assert (V1 : lookup (str "v") env1 = Some (VFields fs)) by (rewrite E1, !lookup_update; names; exact (r_v _ _ _ _ I)).
  destruct e as [e|]; [constructor; split; [now apply more_keys|split; [reflexivity|now rewrite update_same]]|].
  assert (I1 : rinv true ul fs env1).
  { rewrite E1. apply set_err. exact (rinv_update true ul fs env "exists" KBool _ (or_intror (conj eq_refl eq_refl)) I). }
  cbn [exec dbind]. unfold var. cbn [eval]. rewrite E1 at 1. rewrite !lookup_update. names. rewrite L. unfold of_prim. cbn [kind_of leaf_zero].
  destruct b.
  - apply rblock; [exact M1|]. exact (W fs env1 i v I1 F ltac:(discriminate)).
  - constructor. split; [now apply more_keys|]. split; [reflexivity|]. now rewrite update_same.
Qed.
Lemma rcode_slice unm E ue name T t s need u : is_slice E t = true -> element_type E t = Some u -> T = type_tokens (type_text u) ->
  rcode unm E ue true name T t s need -> rcode unm E ue true name T t (SReadSlice s) false.
Proof.
  intros SL ET TT W fs env i v I F _. cbn [go_code exec_read]. rewrite !rexec_seq. destruct (r_len _ _ _ _ I eq_refl) as (y & L).
  pose proof (read_variable unm E ue true fs env "length" KUint y I eq_refl ltac:(discriminate) L eq_refl eq_refl eq_refl eq_refl) as RV.
  pose proof (dsim_trans _ _ _ _ _ RV (read_wrapped PUint ReadVaruint)) as D. clear RV.
  change (str "Read" ++ method_name KUint) with (str "ReadVaruint") in D.
  eapply dsim_bind; [exact D|]. clear D. intros [env1 o] [n e] ([q e'] & (E1 & _ & ->) & -> & ->).
  assert (M1 : map fst env1 = map fst env) by (rewrite E1, !update_keys; reflexivity).
  assert (V1 : lookup (str "v") env1 = Some (VFields fs)) by (rewrite E1, !lookup_update; names; exact (r_v _ _ _ _ I)).
  destruct e as [e|]; [constructor; split; [now apply more_keys|split; [reflexivity|now rewrite update_same]]|].
  assert (I1 : rinv ue true fs env1).
  { rewrite E1. apply set_err. exact (rinv_update ue true fs env "length" KUint _ (or_introl (conj eq_refl eq_refl)) I). }
  assert (L1 : lookup (str "length") env1 = Some (of_prim (PUint n))) by (rewrite E1, !lookup_update; names; now rewrite L).
  rewrite rexec_seq. set (made := match head E t with TLeaf _ => RLeaf (PGoBytes (zeros (Z.to_nat (i64 n)))) false | _ => RSlice (Some (repeat (zero E u) (Z.to_nat (i64 n)))) end).
  set (okn := make_ok (match head E t with TLeaf _ => 1 | _ => size_of E u end) (i64 n)).
  assert (MK : make_slice E env1 (fld name) T (var "length") = if okn then Ok (fields_to fs name t env1 made) else Panic "makeslice: len out of range").
  { unfold make_slice. rewrite (eval_field E env1 fs name t v V1 F). cbn [rbind]. unfold var. cbn [eval]. rewrite L1. cbn [rbind]. unfold of_prim. cbn [kind_of leaf_zero].
    assert (NT : names_type T u = true) by (unfold names_type; rewrite TT; now destruct (list_eq_dec _ _ _)).
    unfold is_slice in SL. unfold element_type in ET. unfold okn, made. destruct (head E t) as [k| | | |u'| | | | |] eqn:H; try discriminate SL.
    - destruct k; try discriminate SL. injection ET as <-. rewrite NT. cbn [negb]. destruct (make_ok 1 (i64 n)); [|reflexivity]. exact (put_field E ue true fs env1 name t v _ I1 F).
    - injection ET as ->. rewrite NT. cbn [negb]. destruct (make_ok _ _); [|reflexivity]. exact (put_field E ue true fs env1 name t v _ I1 F). }
  cbn [exec]. unfold set_vars. cbn [call_read]. fold (fld name). rewrite MK. rewrite ET. fold okn. destruct okn; [|cbn [lift dbind]; constructor].
  cbn [lift dbind]. set (env2 := fields_to fs name t env1 made).
  assert (I2 : rinv ue true (update name (t, made) fs) env2) by now apply fields_to_rinv.
  assert (L2 : lookup (str "length") env2 = Some (of_prim (PUint n))) by (unfold env2, fields_to; rewrite lookup_update; names; exact L1).
  unfold var. cbn [eval]. rewrite L2. cbn [rbind]. unfold of_prim. cbn [kind_of leaf_zero]. names.
  assert (F2 : lookup name (update name (t, made) fs) = Some (t, made)) by (rewrite lookup_update, same_text_refl, F; reflexivity).
  apply (rres_more _ _ _ _ _ env env2); [apply more_keys; unfold env2, fields_to; now rewrite update_keys|].
  fold made. eapply dsim_weaken; [|exact (rloop unm E ue true name T t s need W (Z.to_nat (i64 n)) 0 _ env2 made I2 F2)].
  intros [env3 r] [v2 e]. unfold rres. now rewrite update_update.
Qed.

(** The unmarshal code of a field. *)
Lemma method_variable text k : method_of text = Some k -> k <> KGoBytes -> exists z, zero_value (type_tokens text) = Some (VAt (TLeaf k) z).
Proof.
  unfold method_of. intros H NB.
  repeat match type of H with
  | (if same_text ?a ?b then _ else _) = _ => let X := fresh "X" in destruct (same_text a b) eqn:X;
      [apply same_text_iff in X; rewrite X; injection H as <-; eexists; vm_compute; reflexivity|]
  | (if _ || _ then _ else _) = _ => destruct (_ || _); [injection H as <-; now elim NB|]
  end.
  discriminate H.
Qed.
Lemma slice_text E t tg f : classify (type_text t) tg = Ok f -> f_slice f = true -> is_slice E t = true ->
  exists u, element_type E t = Some u /\ f_type f = type_text u.
Proof.
  intros C FS SL.
  assert (X : exists text, f = field_of t (is_optional tg) text).
  { pose proof (classify_text t tg) as X. destruct (_ && _); destruct X as (z & X); [congruence|]. exists z. congruence. }
  destruct X as (text & X). rewrite X in FS. unfold field_of in FS. destruct t as [k| | |t|t|n t|k v|fs|i u|i]; try discriminate FS.
  - destruct k; try discriminate FS. exists (TLeaf KU8). split; [reflexivity|]. destruct tg; try discriminate C; injection C as <-; reflexivity.
  - discriminate SL.
  - exists t. split; [reflexivity|]. destruct tg; try discriminate C; apply (f_equal (fun r => match r with Ok f => f_type f | _ => [] end)) in C; symmetry; exact C.
Qed.
Lemma rcode_field unm E ue ul name t tg f : classify (type_text t) tg = Ok f ->
  (f_optional f = true -> ue = true) -> (f_slice f = true -> ul = true) -> well_typed E t (gen_read f) = true ->
  rcode unm E ue ul name (type_tokens (f_type f)) t (gen_read f) false.
Proof.
  intros CF UE UL WT. pose proof (slice_text E t tg f CF) as ST. destruct (classified t tg f CF) as (M & _ & L). clear CF. unfold gen_read in *.
  set (T := type_tokens (f_type f)) in *.
  assert (B : forall need, need = f_slice f || f_array f -> forall code,
    code = match f_method f with Some k => (if f_ptr f then SReadTmp else SRead) k {| star := false; index := need |} | None => SUnmarshal {| star := f_ptr f && need; index := need |} end ->
    well_typed E t code = true -> rcode unm E ue ul name T t code need).
  { intros need _ code -> W. destruct (f_method f) as [k|] eqn:FM.
    - pose proof (method_go _ _ (eq_sym M)) as GK. destruct (f_ptr f).
      + assert (NB : k <> KGoBytes) by (intros ->; discriminate W). destruct (method_variable _ _ (eq_sym M) NB) as (z & ZV).
        exact (rcode_tmp unm E ue ul name T t k need z GK W ZV).
      + exact (rcode_read unm E ue ul name T t k need GK W).
    - exact (rcode_unmarshal unm E ue ul name T t {| star := f_ptr f && need; index := need |} W). }
  specialize (B _ eq_refl _ eq_refl). set (code := match f_method f with Some k => _ | None => _ end) in *. clearbody code.
  assert (S : forall c, c = (if f_slice f then SReadSlice code else code) -> well_typed E t c = true -> rcode unm E ue ul name T t c (f_array f)).
  { intros c -> W. destruct (f_slice f) eqn:FS; [|exact (B W)]. cbn [well_typed] in W. apply andb_prop in W as [W1 W2]. rewrite (UL eq_refl) in *.
    destruct (ST eq_refl W1) as (u & ET & TX). assert (TT : T = type_tokens (type_text u)) by (unfold T; now rewrite TX).
    pose proof (rcode_slice unm E ue name T t code true u W1 ET TT (B W2)) as X.
    intros fs env i v I F _. exact (X fs env i v I F ltac:(discriminate)). }
  specialize (S _ eq_refl). set (c1 := if f_slice f then _ else code) in *. clearbody c1. clear B.
  assert (A : forall c, c = (if f_array f then SReadArray (f_len f) c1 else c1) -> well_typed E t c = true -> rcode unm E ue ul name T t c false).
  { intros c -> W. destruct (f_array f); [|exact (S W)]. cbn [well_typed] in W. exact (rcode_array unm E ue ul name T t (f_len f) c1 true (S W)). }
  specialize (A _ eq_refl). set (c2 := if f_array f then _ else c1) in *. clearbody c2. clear S.
  destruct (f_optional f); [|exact (A WT)]. cbn [well_typed] in WT. rewrite (UE eq_refl) in *.
  exact (rcode_optional unm E ul name T t c2 false eq_refl (A WT)).
Qed.

Lemma dsim_ret_r {A B} (R : A -> B -> Prop) p q : dsim R (dbind p (fun a => DRet a)) q -> dsim R p q.
Proof.
  revert q. induction p as [a|m| |n k IH|k IH]; intros q H; cbn [dbind] in H; inversion H; subst; constructor; auto.
Qed.
(** All the fields. *)
Fixpoint rready (E : types) (ue ul : bool) (nf : list (ident * field)) (gs : list (tag * visibility * gtype)) : Prop :=
  match nf, gs with
  | [], [] => True
  | (name, f) :: nf, (tg, _, t) :: gs =>
      classify (type_text t) tg = Ok f /\ (f_optional f = true -> ue = true) /\ (f_slice f = true -> ul = true) /\
      well_typed E t (gen_read f) = true /\ rready E ue ul nf gs
  | _, _ => False
  end.
Fixpoint zip_fields (names : list ident) (gs : list (tag * visibility * gtype)) (l : list rval) : list (ident * (gtype * rval)) :=
  match names, gs, l with
  | n :: names, (_, t) :: gs, v :: l => (n, (t, v)) :: zip_fields names gs l
  | _, _, _ => []
  end.
Lemma lookup_app {A} x (a b : list (ident * A)) : ~ In x (map fst a) -> lookup x (a ++ b) = lookup x b.
Proof.
  induction a as [|[y v] a IH]; intros N; [reflexivity|]. cbn [app lookup map fst] in *. destruct (same_text x y) eqn:S.
  - apply same_text_iff in S. subst y. elim N. now left.
  - apply IH. intros I. apply N. now right.
Qed.
Lemma update_app {A} x (w : A) (a b : list (ident * A)) : ~ In x (map fst a) -> update x w (a ++ b) = a ++ update x w b.
Proof.
  induction a as [|[y v] a IH]; intros N; [reflexivity|]. cbn [app update map fst] in *. destruct (same_text x y) eqn:S.
  - apply same_text_iff in S. subst y. elim N. now left.
  - f_equal. apply IH. intros I. apply N. now right.
Qed.
Definition rfn (nf : list (ident * field)) : gstmt := sequence (map (fun '(name, f) => go_code name (type_tokens (f_type f)) (gen_read f)) nf).
Lemma rfields unm E ue ul nf gs : rready E ue ul nf gs -> forall done l env, NoDup (map fst done ++ map fst nf) -> length l = length gs ->
  rinv ue ul (done ++ zip_fields (map fst nf) gs l) env ->
  dsim (fun '(env', r) '(l', e) => lookup (str "v") env' = Some (VFields (done ++ zip_fields (map fst nf) gs l')) /\ length l' = length gs /\
          match e with Some x => r = Some (VErr (Some x)) | None => r = None /\ lookup (str "err") env' = Some (VErr None) end)
    (rexec unm E env (rfn nf)) (unmarshal_body unm E gs (map gen_read (map snd nf)) l).
Proof.
  revert gs. induction nf as [|[name f] nf IH]; intros [|[[tg vis] t] gs] R done [|v l] env ND LN I; cbn [rready] in R; try contradiction; try discriminate LN.
  - constructor. split; [exact (r_v _ _ _ _ I)|]. split; [reflexivity|]. split; [reflexivity|exact (r_err _ _ _ _ I)].
  - destruct R as (CF & UE & UL & WT & R). unfold rfn. cbn [map sequence unmarshal_body snd fst]. fold (rfn nf). rewrite rexec_seq.
    cbn [map fst zip_fields] in I, ND |- *.
    assert (NI : ~ In name (map fst done)).
    { intros X. apply NoDup_remove_2 in ND. apply ND. apply in_or_app. now left. }
    assert (F : lookup name (done ++ (name, (t, v)) :: zip_fields (map fst nf) gs l) = Some (t, v)).
    { rewrite lookup_app by exact NI. cbn [lookup]. now rewrite same_text_refl. }
    assert (U : forall w, update name (t, w) (done ++ (name, (t, v)) :: zip_fields (map fst nf) gs l) = done ++ (name, (t, w)) :: zip_fields (map fst nf) gs l).
    { intros w. rewrite update_app by exact NI. cbn [update]. now rewrite same_text_refl. }
    injection LN as LN.
    eapply dsim_bind; [exact (rcode_field unm E ue ul name t tg f CF UE UL WT _ env 0%nat v I F ltac:(discriminate))|].
    intros [env1 r] [v' e] [_ Q]. rewrite U in Q. destruct e as [e|].
    + destruct Q as [-> V]. constructor. split; [exact V|]. split; [cbn [length]; now rewrite LN|reflexivity].
    + destruct Q as [-> I1].
      assert (AP : forall w, done ++ (name, (t, v')) :: w = (done ++ [(name, (t, v'))]) ++ w) by (intros w; now rewrite <- app_assoc).
      rewrite AP in I1. assert (ND' : NoDup (map fst (done ++ [(name, (t, v'))]) ++ map fst nf)) by (rewrite map_app, <- app_assoc; exact ND).
      apply dsim_ret_r. eapply dsim_bind; [exact (IH gs R _ l env1 ND' LN I1)|].
      intros [env2 r] [l' e] (V & LN' & Q). constructor. rewrite <- app_assoc in V. cbn [app] in V. split; [exact V|]. split; [cbn [length]; now rewrite LN'|exact Q].
Qed.

Lemma unmarshal_run unm E struct nf gs l : 
  rready E (existsb (fun '(_, f) => f_optional f) nf) (existsb (fun '(_, f) => f_slice f) nf) nf gs -> NoDup (map fst nf) -> length l = length gs ->
  receiver (combine (map fst nf) (map snd gs)) l = VFields (zip_fields (map fst nf) gs l) ->
  dsim eq (run_unmarshal unm E (unmarshal_func struct nf) (combine (map fst nf) (map snd gs)) l) (unmarshal_body unm E gs (map gen_read (map snd nf)) l).
Proof.
  intros R ND LN RV. unfold run_unmarshal, unmarshal_func. cbn [g_param g_recv g_body]. rewrite RV. fold (rfn nf).
  set (ue := existsb _ nf) in *. set (ul := existsb (fun '(_, f) => f_slice f) nf) in *. set (all := zip_fields (map fst nf) gs l) in *. unfold body.
  set (env0 := (if ul then [(str "length", VAt (TLeaf KUint) (RLeaf (zero_prim KUint) true))] else []) ++ (if ue then [(str "exists", VAt (TLeaf KBool) (RLeaf (zero_prim KBool) true))] else [])
    ++ [(str "err", VErr None); (str "d", VCodec); (str "v", VFields all)]).
  assert (X : rexec unm E [(str "d", VCodec); (str "v", VFields all)]
     (GSeq (GVar (str "err") [word "error"]) (GSeq (if ue then GVar (str "exists") [word "bool"] else GSkip)
        (GSeq (if ul then GVar (str "length") [word "uint"] else GSkip) (GSeq (rfn nf) (GReturn (var "err"))))))
     = rexec unm E env0 (GSeq (rfn nf) (GReturn (var "err")))) by (unfold env0; destruct ue, ul; reflexivity).
  rewrite X. clear X.
  assert (I : rinv ue ul all env0).
  { unfold env0. destruct ue, ul; constructor; try reflexivity; try discriminate; intros _; eexists; reflexivity. }
  clearbody env0. rewrite rexec_seq. pose proof (rfields unm E ue ul nf gs R [] l env0 ND LN I) as W. cbn [app] in W.
  assert (VS : forall l', length l' = length gs -> map (fun x => snd (snd x)) (zip_fields (map fst nf) gs l') = l').
  { clear - R. clearbody ue ul. revert gs R. induction nf as [|[n f] nf IH]; intros [|[[tg vis] t] gs] R [|v l'] L; cbn [rready] in R; try contradiction; try discriminate L; [reflexivity|].
    cbn [map fst zip_fields snd]. f_equal. apply IH; [apply R|now injection L]. }
  induction W as [[env1 r] [l' e] (V & L' & Q)|m| |n k k' H IH|k k' H IH]; cbn [dbind]; [|constructor|constructor|constructor; exact IH|constructor; exact IH].
  destruct e as [e|].
  - subst r. cbn [dbind]. rewrite V. constructor. now rewrite VS.
  - destruct Q as [-> ER]. cbn [exec]. unfold var. cbn [eval]. rewrite ER. cbn [rbind lift dbind]. rewrite V. constructor. now rewrite VS.
Qed.

(** ** Both functions *)
Lemma receiver_zip names gs l : length gs = length names -> length l = length names -> receiver (combine names (map snd gs)) l = VFields (zip_fields names gs l).
Proof.
  intros G L. unfold receiver. f_equal. revert gs l G L. induction names as [|n names IH]; intros [|[tv t] gs] [|v l] G L; try discriminate; [reflexivity|].
  cbn [combine map snd zip_fields]. f_equal. apply IH; [now injection G|now injection L].
Qed.
Lemma compiled_ready E fs : compiles E fs = true -> exists fl, classify_all fs = Ok fl /\
  Forall2 (fun '(tg, _, t) f => classify (type_text t) tg = Ok f /\ well_typed E t (gen_write f) = true /\ well_typed E t (gen_read f) = true) fs fl.
Proof.
  unfold compiles. destruct (classify_all fs) as [fl|e|m] eqn:C; try discriminate. intros H. exists fl. split; [reflexivity|].
  apply andb_prop in H as [H _]. apply andb_prop in H as [H _]. apply classified_all in C.
  revert H. induction C as [|[[tg vis] t] f fs fl CF _ IH]; intros H; [constructor|]. cbn [combine forallb] in H. apply andb_prop in H as [H1 H2].
  constructor; [|exact (IH H2)]. apply andb_prop in H1 as [H1 WR]. apply andb_prop in H1 as [_ WW]. now repeat split.
Qed.
Lemma fields_typed E ok gs l : have_field_types E ok gs l -> length l = length gs.
Proof. induction 1; cbn [length]; congruence. Qed.
Lemma make_wready E ue ul gs fl :
  Forall2 (fun '(tg, _, t) f => classify (type_text t) tg = Ok f /\ well_typed E t (gen_write f) = true /\ well_typed E t (gen_read f) = true) gs fl ->
  forall names l done, have_field_types E any_leaf gs l -> length names = length fl -> NoDup (map fst done ++ names) ->
  (forall f, In f fl -> wflag f = true -> ue = true) -> (forall f, In f fl -> f_slice f = true -> ul = true) ->
  wready E (done ++ zip_fields names gs l) ue ul (combine names fl) gs l.
Proof.
  induction 1 as [|[[tg vis] t] f gs fl (CF & WW & _) _ IH]; intros names l done T L ND UE UL.
  - destruct names; [|discriminate L]. inversion T. exact I.
  - destruct names as [|name names]; [discriminate L|]. injection L as L. inversion T as [|? ? ? ? v l' TV TL]; subst.
    cbn [combine zip_fields wready].
    assert (NI : ~ In name (map fst done)).
    { intros X. apply NoDup_remove_2 in ND. apply ND. apply in_or_app. now left. }
    split; [rewrite lookup_app by exact NI; cbn [lookup]; now rewrite same_text_refl|]. split; [exact TV|]. split; [exact (classified _ _ _ CF)|].
    split; [apply UE; now left|]. split; [apply UL; now left|]. split; [exact WW|].
    specialize (IH names l' (done ++ [(name, (t, v))]) TL L). rewrite <- app_assoc in IH. cbn [app] in IH. apply IH.
    + rewrite map_app, <- app_assoc. exact ND.
    + intros g J. apply UE. now right.
    + intros g J. apply UL. now right.
Qed.
Lemma make_rready E ue ul gs fl :
  Forall2 (fun '(tg, _, t) f => classify (type_text t) tg = Ok f /\ well_typed E t (gen_write f) = true /\ well_typed E t (gen_read f) = true) gs fl ->
  forall names, length names = length fl ->
  (forall f, In f fl -> f_optional f = true -> ue = true) -> (forall f, In f fl -> f_slice f = true -> ul = true) ->
  rready E ue ul (combine names fl) gs.
Proof.
  induction 1 as [|[[tg vis] t] f gs fl (CF & _ & WR) _ IH]; intros names L UE UL.
  - destruct names; [exact I|discriminate L].
  - destruct names as [|name names]; [discriminate L|]. injection L as L. cbn [combine rready].
    split; [exact CF|]. split; [apply UE; now left|]. split; [apply UL; now left|]. split; [exact WR|]. apply IH; [exact L| |].
    + intros g J. apply UE. now right.
    + intros g J. apply UL. now right.
Qed.
Lemma combine_keys {A B} (a : list A) (b : list B) : length a = length b -> map fst (combine a b) = a /\ map snd (combine a b) = b.
Proof.
  revert b. induction a as [|x a IH]; intros [|y b] L; try discriminate; [split; reflexivity|]. injection L as L. destruct (IH b L) as [A1 A2].
  cbn [combine map fst snd]. now rewrite A1, A2.
Qed.
Lemma flag_up (p : field -> bool) (names : list ident) (fl : list field) f : length names = length fl -> In f fl -> p f = true ->
  existsb (fun '(_, f) => p f) (combine names fl) = true.
Proof.
  intros L J P. apply existsb_exists. apply in_split in J as (l1 & l2 & ->).
  assert (X : exists n, In (n, f) (combine names (l1 ++ f :: l2))).
  { revert names L. induction l1 as [|g l1 IH]; intros [|n names] L; try discriminate; injection L as L.
    - exists n. now left.
    - destruct (IH names L) as (m & I). exists m. now right. }
  destruct X as (n & X). exists (n, f). now split.
Qed.
Lemma functions_run E struct names fs fl mar unm l : compiles E fs = true -> classify_all fs = Ok fl -> length names = length fs -> NoDup names ->
  have_field_types E any_leaf fs l ->
  esim eq (run_marshal mar E (marshal_func struct (combine names fl)) (combine names (map snd fs)) l) (marshal_body mar E fs (map gen_write fl) l) /\
  dsim eq (run_unmarshal unm E (unmarshal_func struct (combine names fl)) (combine names (map snd fs)) l) (unmarshal_body unm E fs (map gen_read fl) l).
Proof.
  intros C CA LN ND T. destruct (compiled_ready E fs C) as (fl' & CA' & F). assert (fl' = fl) by congruence. subst fl'.
  assert (LF : length fs = length fl) by (clear - F; induction F; cbn [length]; congruence). assert (LL : length names = length fl) by congruence. pose proof (fields_typed _ _ _ _ T) as LV.
  destruct (combine_keys names fl LL) as [K1 K2]. split.
  - rewrite <- K2 at 2. apply (marshal_run mar E struct (combine names fl) fs l _ (zip_fields names fs l)).
    + apply receiver_zip; congruence.
    + apply (make_wready E _ _ fs fl F names l []); [exact T|exact LL|exact ND| |].
      * intros f J W. exact (flag_up wflag names fl f LL J W).
      * intros f J W. apply (flag_up lflag names fl f LL J). unfold lflag. now rewrite W.
  - rewrite <- K2 at 2. rewrite <- K1 at 2. apply unmarshal_run.
    + apply make_rready with (fl := fl); [exact F|exact LL| |].
      * intros f J W. exact (flag_up f_optional names fl f LL J W).
      * intros f J W. exact (flag_up f_slice names fl f LL J W).
    + now rewrite K1.
    + congruence.
    + rewrite K1. apply receiver_zip; congruence.
Qed.
