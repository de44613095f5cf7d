(** Custom functions; hand-written and reflective codecs agree. *)
From Verif Require Import Base Prog AbiPrim BaseProofs SpecWire ProgProofs AbiPrimProofs Chain SpecChain ChainProofs
  Values Leaf SpecLeaf LeafProofs Reflect SpecReflect ReflectProofs ReflectTags SpecCustom.

Definition weq {A} (p q : enc A) : Prop := forall out, runw p out = runw q out.
Lemma weq_refl {A} (p : enc A) : weq p p. Proof. intros out. reflexivity. Qed.
Lemma weq_etry p q p' q' : weq p p' -> weq q q' -> weq (etry p q) (etry p' q').
Proof. intros H1 H2 out. rewrite !runw_etry, H1. destruct (runw p' out) as [[e|] o|m o|]; try reflexivity. apply H2. Qed.
Lemma weq_bind {A B} (p p' : enc A) (f g : A -> enc B) : weq p p' -> (forall a, weq (f a) (g a)) -> weq (ebind p f) (ebind p' g).
Proof. intros H1 H2 out. rewrite !runw_ebind, H1. destruct (runw p' out) as [a o|m o|]; try reflexivity. apply H2. Qed.

(** ** Encoders *)
Lemma hooked_run h t v rest out : runw (hooked h t v rest) out =
  match runw (h t v) out with
  | WDone (true, err) o => WDone err o
  | WDone (false, Some e) o => WDone (Some e) o
  | WDone (false, None) o => runw rest o
  | WCrash m o => WCrash m o
  | WDiverged => WDiverged
  end.
Proof. unfold hooked. rewrite runw_ebind. destruct (runw (h t v) out) as [[[] [e|]] o|m o|]; reflexivity. Qed.
Lemma encode_hooked E h t v : exists rest, encode E h t v = hooked h (head E t) v rest.
Proof. destruct v; cbn [encode]; eexists; reflexivity. Qed.
Lemma custom_final fn t v rest out done err o : runw (fn t v) out = WDone (done, err) o -> done = true \/ err <> None ->
  runw (hooked (custom_encoder fn) t v rest) out = WDone err o.
Proof.
  intros H D. rewrite hooked_run. unfold custom_encoder. rewrite runw_ebind, H.
  destruct done, err as [e|]; try reflexivity. destruct D; congruence.
Qed.
Lemma encoder_final E fn t v out done err o : runw (fn (head E t) v) out = WDone (done, err) o -> done = true \/ err <> None ->
  runw (encode E (custom_encoder fn) t v) out = WDone err o.
Proof. intros H D. destruct (encode_hooked E (custom_encoder fn) t v) as [rest ->]. eapply custom_final; eassumption. Qed.
Lemma custom_declined fn t v : declines fn t v -> weq (custom_encoder fn t v) (chain_encoder t v).
Proof. intros D out. unfold custom_encoder. now rewrite runw_ebind, D. Qed.
Lemma hooked_declined fn t v rest rest' : declines fn t v -> weq rest rest' ->
  weq (hooked (custom_encoder fn) t v rest) (hooked chain_encoder t v rest').
Proof.
  intros D R out. rewrite !hooked_run, (custom_declined _ _ _ D).
  destruct (runw (chain_encoder t v) out) as [[[] [e|]] o|m o|]; try reflexivity. apply R.
Qed.
Lemma put_list_weq f g l : (forall x, In x l -> weq (f x) (g x)) -> weq (put_list f l) (put_list g l).
Proof.
  induction l as [|x l IH]; intros H; [apply weq_refl|]. cbn [put_list].
  apply weq_etry; [apply H; now left|]. apply IH. intros y I. apply H. now right.
Qed.
Lemma put_pairs_weq f g f' g' m : (forall k x, In (k, x) m -> weq (f k) (f' k) /\ weq (g x) (g' x)) -> weq (put_pairs f g m) (put_pairs f' g' m).
Proof.
  induction m as [|[k x] m IH]; intros H; [apply weq_refl|]. cbn [put_pairs]. destruct (H k x (or_introl eq_refl)) as [A B].
  apply weq_etry; [exact A|]. apply weq_etry; [exact B|]. apply IH. intros ? ? I. apply H. now right.
Qed.
Lemma put_fields_weq E h h' : forall fs l,
  (forall i tg t x, nth_error fs i = Some (tg, Exported, t) -> nth_error l i = Some x -> (tg = Optional -> is_zero x = false) ->
     weq (encode E h t x) (encode E h' t x)) -> weq (put_fields E h fs l) (put_fields E h' fs l).
Proof.
  induction fs as [|[[tg vis] t] fs IH]; intros [|x l] H; try apply weq_refl. rewrite !put_cons. cbv zeta.
  assert (R : weq (put_fields E h fs l) (put_fields E h' fs l)) by (apply IH; intros i; apply (H (S i))).
  assert (F : (tg = Optional -> is_zero x = false) -> weq match vis with Exported => encode E h t x | _ => EPanic "cannot return value obtained from unexported field" end
    match vis with Exported => encode E h' t x | _ => EPanic "cannot return value obtained from unexported field" end).
  { destruct vis; try (intros; apply weq_refl). intros Z. apply (H O tg); [reflexivity|reflexivity|exact Z]. }
  destruct tg; try (apply weq_etry; [apply F; discriminate|exact R]).
  apply weq_bind; [apply weq_refl|]. intros _. destruct (is_zero x) eqn:Z; [exact R|]. apply weq_etry; [apply F; auto|exact R].
Qed.
Lemma in_induction (P : rval -> Prop) :
  (forall p z, P (RLeaf p z)) -> (forall v, P (RInt v)) -> (forall z, P (ROther z)) -> P (RPtr None) -> (forall x, P x -> P (RPtr (Some x))) ->
  P (RSlice None) -> (forall l, (forall x, In x l -> P x) -> P (RSlice (Some l))) -> (forall l, (forall x, In x l -> P x) -> P (RArray l)) ->
  P (RMap None) -> (forall m, (forall k x, In (k, x) m -> P k /\ P x) -> P (RMap (Some m))) ->
  (forall l, (forall x, In x l -> P x) -> P (RStruct l)) -> (forall v, P (RUser v)) -> forall v, P v.
Proof.
  intros H1 H2 H3 H4 H5 H6 H7 H8 H9 H10 H11 H12. fix IH 1.
  assert (L : forall l : list rval, (forall x, In x l -> P x)).
  { fix IHl 1. intros [|y l] x I; [destruct I|]. destruct I as [<-|I]; [apply IH|now apply (IHl l)]. }
  intros [p z|v|z|[x|]|[l|]|l|[m|]|l|v].
  - apply H1.
  - apply H2.
  - apply H3.
  - apply H5, IH.
  - apply H4.
  - apply H7, L.
  - apply H6.
  - apply H8, L.
  - apply H10. revert m. fix IHm 1. intros [|[k' x'] m] k x I; [destruct I|].
    destruct I as [I|I]; [injection I as <- <-; split; apply IH|now apply (IHm m)].
  - apply H9.
  - apply H11, L.
  - apply H12.
Qed.
Lemma encoder_declines E fn : forall v t, (forall a b, consulted E t v a b -> declines fn a b) ->
  weq (encode E (custom_encoder fn) t v) (encode E chain_encoder t v).
Proof.
  apply (in_induction (fun v => forall t, (forall a b, consulted E t v a b -> declines fn a b) ->
    weq (encode E (custom_encoder fn) t v) (encode E chain_encoder t v)));
    intros; cbn [encode]; (apply hooked_declined; [match goal with H : forall a b, consulted _ _ _ _ _ -> _ |- _ => apply H; constructor end|]).
  - destruct (head E t) eqn:HT; try apply weq_refl. unfold encode_leaf. destruct p; try apply weq_refl. cbv zeta.
    apply weq_etry; apply hooked_declined; try apply weq_refl; apply H; [eapply co_quantity; exact HT|eapply co_contract; exact HT].
  - destruct (head E t) eqn:HT; apply weq_refl.
  - destruct (head E t) eqn:HT; apply weq_refl.
  - destruct (head E t) eqn:HT; apply weq_refl.
  - destruct (head E t) as [| | |t'| | | | | |] eqn:HT; try apply weq_refl.
    assert (W : (forall k, head E t' = TLeaf k -> go_kind k = true) -> (forall i u, head E t' <> TUser i u) -> weq (encode E (custom_encoder fn) t' x) (encode E chain_encoder t' x)).
    { intros G GU. apply H. intros a b C. apply H0. eapply co_ptr; eassumption. }
    destruct (head E t') as [k| | | | | | | |j u|] eqn:HT'; try (apply W; congruence); [|destruct x; apply weq_refl].
    destruct (go_kind k) eqn:GK; [|destruct x; apply weq_refl]. apply W; [intros k' Q|]; congruence.
  - destruct (head E t) eqn:HT; apply weq_refl.
  - destruct (head E t) as [| | | |t'| | | | |] eqn:HT; try apply weq_refl. cbv zeta.
    apply weq_etry; [apply weq_refl|]. apply put_list_weq. intros x I. apply H; [exact I|]. intros a b C. apply H0. eapply co_slice; eassumption.
  - destruct (head E t) as [| | | | |n t'| | | |] eqn:HT; try apply weq_refl.
    apply put_list_weq. intros x I. apply H; [exact I|]. intros a b C. apply H0. eapply co_array; eassumption.
  - destruct (head E t) eqn:HT; apply weq_refl.
  - destruct (head E t) as [| | | | | |kt vt| | |] eqn:HT; try apply weq_refl. cbv zeta.
    apply weq_etry; [apply weq_refl|]. apply put_pairs_weq. intros k x I. destruct (H k x I) as [K X]. split.
    + apply K. intros a b C. apply H0. eapply co_key; eassumption.
    + apply X. intros a b C. apply H0. eapply co_value; eassumption.
  - destruct (head E t) as [| | | | | | |fs| |] eqn:HT; try apply weq_refl.
    apply put_fields_weq. intros i tg t' x N1 N2 Z. apply H; [eapply nth_error_In; exact N2|].
    intros a b C. apply H0. eapply co_field; eassumption.
  - destruct (head E t) eqn:HT; apply weq_refl.
Qed.

(** ** Decoders *)
Definition deq {A} (p q : dec A) : Prop := forall env inp, run env p inp = run env q inp.
Lemma deq_refl {A} (p : dec A) : deq p p. Proof. intros env inp. reflexivity. Qed.
Lemma deq_bind {A B} (p p' : dec A) (f g : A -> dec B) : deq p p' -> (forall a, deq (f a) (g a)) -> deq (dbind p f) (dbind p' g).
Proof. intros H1 H2 env inp. rewrite !run_dbind, H1. destruct (run env p' inp) as [a r|m|]; try reflexivity. apply H2. Qed.
Lemma custom_decoder_run fn t v env inp : run env (custom_decoder fn t v) inp =
  match run env (fn t v) inp with
  | Done (v', (false, None)) r => run env (chain_decoder t v') r
  | r => r
  end.
Proof. unfold custom_decoder. rewrite run_dbind. destruct (run env (fn t v) inp) as [[v' [[] [e|]]] r|m|]; reflexivity. Qed.
Lemma decoder_final E fn t old fuel env inp v done err rest : run env (fn (head E t) old) inp = Done (v, (done, err)) rest ->
  done = true \/ err <> None -> run env (decode (S fuel) E (custom_decoder fn) Whole t old) inp = Done (v, err) rest.
Proof.
  intros H D. cbn [decode]. rewrite run_dbind, custom_decoder_run, H. destruct done, err as [e|]; try reflexivity. destruct D; congruence.
Qed.
Lemma through_deq E f g t v : (forall t v, deq (f t v) (g t v)) -> deq (through E f t v) (through E g t v).
Proof.
  intros H. unfold through. destruct (head E t); try apply H. destruct v; try apply H.
  apply deq_bind; [apply H|intros; apply deq_refl].
Qed.
Lemma elems_deq f g l : (forall v, deq (f v) (g v)) -> deq (get_elems f l) (get_elems g l).
Proof.
  intros H. induction l as [|x l IH]; [apply deq_refl|]. cbn [get_elems]. apply deq_bind; [apply H|]. intros [y [e|]]; [apply deq_refl|].
  apply deq_bind; [exact IH|intros; apply deq_refl].
Qed.
Lemma slice_deq size z f g o : (forall v, deq (f v) (g v)) -> deq (get_slice size z f o) (get_slice size z g o).
Proof.
  intros H. unfold get_slice. apply deq_bind; [apply deq_refl|]. intros [l [e|]]; [apply deq_refl|].
  destruct (_ =? _).
  - destruct o; [|apply deq_refl]. apply deq_bind; [now apply elems_deq|intros; apply deq_refl].
  - destruct (make_ok _ _); [|apply deq_refl]. apply deq_bind; [now apply elems_deq|intros; apply deq_refl].
Qed.
Lemma pairs_deq fk fv gk gv : deq fk gk -> deq fv gv -> forall n m, deq (get_pairs fk fv n m) (get_pairs gk gv n m).
Proof.
  intros H1 H2. induction n as [|n IH]; intros m; [apply deq_refl|]. cbn [get_pairs]. apply deq_bind; [exact H1|].
  intros [k [e|]]; [apply deq_refl|]. apply deq_bind; [exact H2|]. intros [x [e|]]; [apply deq_refl|apply IH].
Qed.
Lemma field_deq E f f' g g' fd v : (forall t v, deq (f t v) (f' t v)) -> (forall t v, deq (g t v) (g' t v)) ->
  deq (get_field E f g fd v) (get_field E f' g' fd v).
Proof.
  intros H1 H2. destruct fd as [[tg vis] t]. unfold get_field. destruct vis; try apply deq_refl. destruct tg.
  - now apply through_deq.
  - apply deq_bind; [apply deq_refl|]. intros [[] [e|]]; try apply deq_refl. now apply through_deq.
  - apply deq_bind; [now apply through_deq|intros; apply deq_refl].
  - now apply through_deq.
Qed.
Lemma fields_deq E f f' g g' : (forall t v, deq (f t v) (f' t v)) -> (forall t v, deq (g t v) (g' t v)) ->
  forall fs l, deq (get_fields E f g fs l) (get_fields E f' g' fs l).
Proof.
  intros H1 H2. induction fs as [|fd fs IH]; intros [|v l]; try apply deq_refl. cbn [get_fields].
  apply deq_bind; [now apply field_deq|]. intros [x [e|]]; [apply deq_refl|]. apply deq_bind; [apply IH|intros; apply deq_refl].
Qed.
Lemma alternative_deq E f g i fs l : (forall t v, deq (f t v) (g t v)) -> deq (get_alternative E f i fs l) (get_alternative E g i fs l).
Proof.
  intros H. unfold get_alternative. destruct (_ <=? _); [apply deq_refl|]. destruct (clear_others E i fs l); [|apply deq_refl].
  destruct (nth_error fs (Z.to_nat i)) as [[[tg vis] t]|]; [|apply deq_refl]. destruct (head E t); try apply deq_refl.
  apply deq_bind; [apply H|intros; apply deq_refl].
Qed.
Lemma decoder_declines E fn : (forall t v, declines_target fn t v) -> forall fuel m t old,
  deq (decode fuel E (custom_decoder fn) m t old) (decode fuel E chain_decoder m t old).
Proof.
  intros D. induction fuel as [|fuel IH]; intros m t old; [apply deq_refl|]. cbn [decode].
  destruct m as [| |i].
  - apply deq_bind.
    + intros env inp. now rewrite custom_decoder_run, D.
    + intros [v [[] [e|]]]; try apply deq_refl. destruct (head E t); try apply IH. destruct v; try apply IH. destruct (go_kind k); [apply deq_refl|apply IH].
  - destruct (head E t) as [k|k| |t'|t'|n t'|kt vt|fs|i0 u0|j]; try apply deq_refl; destruct old; try apply deq_refl.
    + destruct (go_kind k); [|apply deq_refl]. destruct p; try apply deq_refl. apply deq_bind; [|intros; apply deq_refl].
      apply slice_deq. intros; apply IH.
    + apply through_deq. intros; apply IH.
    + apply deq_bind; [|intros; apply deq_refl]. apply slice_deq. intros; apply through_deq. intros; apply IH.
    + apply deq_bind; [|intros; apply deq_refl]. apply elems_deq. intros; apply through_deq. intros; apply IH.
    + apply deq_bind; [|intros; apply deq_refl]. unfold get_map. apply deq_bind; [apply deq_refl|]. intros [l [e|]]; [apply deq_refl|].
      apply deq_bind; [|intros; apply deq_refl]. apply pairs_deq; apply IH.
    + cbv zeta. apply deq_bind; [|intros; apply deq_refl]. apply fields_deq; [intros; apply IH|].
      intros t1 v1. apply deq_bind; [apply deq_refl|]. intros [i [e|]]; [apply deq_refl|apply IH].
  - destruct (head E t) as [k|k| |t'|t'|n t'|kt vt|fs|i0 u0|j]; try apply deq_refl; destruct old; try apply deq_refl.
    + apply through_deq. intros; apply IH.
    + apply deq_bind; [|intros; apply deq_refl]. apply alternative_deq. intros; apply IH.
Qed.

(** ** Elements are handed to the custom function *)
Lemma nested_encode E fn t (b : rval -> list byte) l pre :
  declines fn (TSlice t) (RSlice (Some l)) ->
  (forall x, In x l -> forall out, runw (fn (head E t) x) out = WDone (true, None) (out ++ b x)) ->
  zlen l < 2 ^ 28 -> varu (zlen l) pre ->
  writes (encode E (custom_encoder fn) (TSlice t) (RSlice (Some l))) (pre ++ concat (map b l)).
Proof.
  intros D H L V out. cbn [encode head]. rewrite hooked_run, (custom_declined _ _ _ D). cbn [chain_encoder runw].
  assert (P : writes (put_list (encode E (custom_encoder fn) t) l) (concat (map b l))).
  { clear D L V. induction l as [|x l IH]; [apply writes_ret|]. cbn [put_list map concat]. apply writes_etry.
    - intros o. apply (encoder_final E fn t x o true None); [apply H; now left|now left].
    - apply IH. intros y I. apply H. now right. }
  refine (writes_etry _ _ _ _ _ P out). apply varu_ok; [|exact V]. pose proof (zlen_nonneg l). lia.
Qed.
Lemma nested_decode E fn t (l : list (list byte * rval)) pre : (forall t', head E t <> TPtr t') ->
  declines_target fn (TSlice t) (RSlice None) ->
  (forall b x, In (b, x) l -> forall old env rest, run env (fn (head E t) old) (b ++ rest) = Done (x, (true, None)) rest) ->
  zlen l < 2 ^ 28 -> make_ok (size_of E t) (zlen l) = true -> varu (zlen l) pre ->
  forall fuel, reads (decode (S (S (S fuel))) E (custom_decoder fn) Whole (TSlice t) (RSlice None)) (pre ++ concat (map fst l))
    (RSlice match l with [] => None | _ => Some (map snd l) end).
Proof.
  intros NP D H L MK V fuel env rest. set (f := S fuel). cbn [decode head]. unfold f.
  rewrite run_dbind, custom_decoder_run, D. cbn [chain_decoder run].
  set (g := S fuel). cbn [decode head]. unfold g. clear f g.
  assert (P : reads (get_elems (through E (decode (S fuel) E (custom_decoder fn) Whole) t) (repeat (zero E t) (length l))) (concat (map fst l)) (map snd l)).
  { clear D L MK V. induction l as [|[b x] l IH]; [apply reads_ret|]. cbn [length repeat get_elems map concat fst snd].
    eapply reads_dbind.
    - intros env' rest'. unfold through.
      assert (R : run env' (decode (S fuel) E (custom_decoder fn) Whole t (zero E t)) (b ++ rest') = Done (x, None) rest').
      { eapply (decoder_final E fn t _ fuel _ _ x true None); [apply (H b x); now left|now left]. }
      destruct (head E t) eqn:HT; try exact R. now elim (NP g).
    - cbv beta iota. eapply rd_bind0; [apply IH; intros; apply (H b0 x0); now right|]. apply reads_ret. }
  pose proof (slice_reads (size_of E t) (zero E t) (through E (decode (S fuel) E (custom_decoder fn) Whole) t)
    pre (concat (map fst l)) (map snd l) (length l) V L MK) as Q.
  assert (N0 : length l = O -> map snd l = []) by (clear; destruct l; [reflexivity|discriminate]).
  specialize (Q N0 P env rest). rewrite run_dbind, Q. destruct l; reflexivity.
Qed.
