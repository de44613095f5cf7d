(** The functions that the generator's text spells compile exactly when [compiles] says so. *)
From Verif Require Import Base Prog AbiPrim Chain Values Leaf SpecLeaf GoStd Numbers Reflect SpecReflect SpecCodegen Codegen CodegenText.
From Verif Require Import SpecText GoStdProofs GoLang GoCheck CodegenSource CodegenProgram CodegenRun.

(** The variables of the functions, but for i and tmp. *)
Definition base (ue ul : bool) (c : string) (y : gty) (lk : kind) (fs : list (ident * gtype)) : tenv :=
  (if ul then [(str "length", YAt (TLeaf lk))] else []) ++ (if ue then [(str "exists", YAt (TLeaf KBool))] else []) ++
  [(str "err", YErr); (str c, y); (str "v", YFields fs)].
Definition like (B G : tenv) : Prop := forall x, same_text x (str "i") = false -> same_text x (str "tmp") = false -> lookup x G = lookup x B.
Definition has_i (G : tenv) : Prop := lookup (str "i") G = Some (YAt (TLeaf KInt)).
Lemma like_tmp B G y : like B G -> like B ((str "tmp", y) :: G).
Proof. intros H x A C. cbn [lookup]. rewrite C. now apply H. Qed.
Lemma like_i B G y : like B G -> like B ((str "i", y) :: G).
Proof. intros H x A C. cbn [lookup]. rewrite A. now apply H. Qed.


Lemma check_field E B G fs name t : like B G -> lookup (str "v") B = Some (YFields fs) -> (same_text name blank = false -> lookup name fs = Some t) ->
  type_of E G (fld name) = if same_text name blank then None else Some (YAt t).
Proof. intros L V N. unfold fld, var. cbn [type_of]. rewrite (L (str "v") eq_refl eq_refl), V. destruct (same_text name blank); [reflexivity|]. now rewrite (N eq_refl). Qed.
Lemma check_place E B G fs name t p : like B G -> lookup (str "v") B = Some (YFields fs) -> (same_text name blank = false -> lookup name fs = Some t) -> (index p = true -> has_i G) ->
  type_of E G (place_expr name p) = if same_text name blank then None else option_map YAt (place_type E p t).
Proof.
  intros L V N I. pose proof (check_field E B G fs name t L V N) as F. unfold place_expr, place_type.
  assert (A : type_of E G (if star p then EParen (EStar (fld name)) else fld name) =
     if same_text name blank then None else option_map YAt (if star p then match head E t with TPtr t => Some t | _ => None end else Some t)).
  { destruct (star p); [|exact F]. cbn [type_of]. rewrite F. destruct (same_text name blank); [reflexivity|]. now destruct (head E t). }
  destruct (index p).
  - cbn [type_of]. rewrite A. unfold var. cbn [type_of]. rewrite (I eq_refl).
    destruct (same_text name blank); [reflexivity|]. destruct (if star p then _ else Some t); reflexivity.
  - rewrite A. destruct (same_text name blank); [reflexivity|]. destruct (if star p then _ else Some t); reflexivity.
Qed.

Definition is_tmp (s : stmt) : bool := match s with SReadTmp _ _ => true | _ => false end.
Definition tmps (s : stmt) : tenv := match s with SReadTmp k _ => [(str "tmp", YAt (TLeaf k))] | _ => [] end.
Definition taken (F : tenv) : bool := match lookup (str "tmp") F with Some _ => true | None => false end.
(** The code [s] of a field is accepted if [ok], where [need]: inside a loop. *)
Definition accepted (E : types) (B : tenv) (name : ident) (T : list token) (s : stmt) (ok need : bool) : Prop :=
  forall F O, like B (F ++ O) -> (need = true -> has_i (F ++ O)) ->
  check E F O (go_code name T s) = if negb (same_text name blank) && ok && negb (is_tmp s && taken F) then Some (tmps s ++ F) else None.

Lemma check_checked E B F O l r : like B (F ++ O) -> lookup (str "err") B = Some YErr -> lookup (str "nil") B = None ->
  check E F O (checked l r) = if set_ok E (F ++ O) l r then Some F else None.
Proof.
  intros L EB NB. unfold checked. cbn [check]. destruct (set_ok E (F ++ O) l r); [|reflexivity]. unfold var. cbn [type_of app].
  rewrite (L (str "err") eq_refl eq_refl), (L (str "nil") eq_refl eq_refl), EB, NB. reflexivity.
Qed.
Ltac base_names := repeat match goal with
  | |- lookup _ (base ?ue ?ul _ _ _ _) = _ => unfold base
  | |- lookup _ ((if ?b then _ else _) ++ _) = _ => destruct b; reflexivity || cbn [app lookup]
  end; try reflexivity.
Lemma base_v ue ul c y lk fs : str c = str "e" \/ str c = str "d" -> lookup (str "v") (base ue ul c y lk fs) = Some (YFields fs).
Proof. unfold base. intros [H|H]; rewrite H; destruct ue, ul; reflexivity. Qed.
Lemma base_err ue ul c y lk fs : lookup (str "err") (base ue ul c y lk fs) = Some YErr.
Proof. unfold base. destruct ue, ul; reflexivity. Qed.
Lemma base_c ue ul c y lk fs : str c = str "e" \/ str c = str "d" -> lookup (str c) (base ue ul c y lk fs) = Some y.
Proof. unfold base. intros [H|H]; rewrite H; destruct ue, ul; reflexivity. Qed.
Lemma base_none ue ul c y lk fs x : str c = str "e" \/ str c = str "d" -> In x ["nil"; "len"; "uint"; "int"; "errors"]%string ->
  lookup (str x) (base ue ul c y lk fs) = None.
Proof. unfold base. intros [H|H] I; rewrite H; cbn [In] in I; repeat (destruct I as [<-|I]; [destruct ue, ul; reflexivity|]); contradiction. Qed.

Definition wbase ue ul fs := base ue ul "e" YEncoder KInt fs.
Definition rbase ue ul fs := base ue ul "d" YDecoder KUint fs.
Lemma err_ok E B G : like B G -> lookup (str "err") B = Some YErr -> fits E G (var "err") YErr = true.
Proof. intros L H. unfold fits, var. cbn [variable type_of andb]. now rewrite (L (str "err") eq_refl eq_refl), H. Qed.

(** ** Writing *)
Lemma acc_write E ue ul fs name T t k p : (same_text name blank = false -> lookup name fs = Some t) -> go_kind k = true ->
  (forall t', place_type E p t = Some t' -> is_kind E k t' = identical t' (TLeaf k)) ->
  accepted E (wbase ue ul fs) name T (SWrite k p) (well_typed E t (SWrite k p)) (index p).
Proof.
  intros N GK X F O L I. cbn [go_code]. rewrite (check_checked E _ F O _ _ L) by (unfold wbase; first [apply base_err|apply base_none; cbn; auto]).
  assert (LE : lookup (str "e") (F ++ O) = Some YEncoder) by (rewrite (L (str "e") eq_refl eq_refl); apply base_c; now left).
  assert (NP : forall m x, type_of E (F ++ O) (ECall1 (ESel (var "e") m) x) = None) by (intros m x; unfold var; cbn [type_of]; now rewrite LE).
  assert (TE : type_of E (F ++ O) (var "e") = Some YEncoder) by (unfold var; cbn [type_of]; now rewrite LE).
  unfold set_ok, types_of. rewrite NP, TE.
  rewrite (check_place E _ _ fs name t p L) by (try exact N; try exact I; unfold wbase; apply base_v; now left).
  cbn [well_typed is_tmp tmps]. rewrite andb_true_r. destruct (same_text name blank); [reflexivity|]. cbn [negb andb].
  destruct (place_type E p t) as [t'|] eqn:P; cbn [option_map].
  - rewrite (method_written k GK), (X t' eq_refl). destruct (identical t' (TLeaf k)); [|reflexivity].
    unfold all_fit. rewrite (err_ok E _ _ L) by apply base_err. reflexivity.
  - reflexivity.
Qed.
Lemma acc_marshal E ue ul fs name T t p : (same_text name blank = false -> lookup name fs = Some t) ->
  accepted E (wbase ue ul fs) name T (SMarshal p) (well_typed E t (SMarshal p)) (index p).
Proof.
  intros N F O L I. cbn [go_code]. rewrite (check_checked E _ F O _ _ L) by (unfold wbase; first [apply base_err|apply base_none; cbn; auto]).
  unfold set_ok, types_of. 
  rewrite (check_place E _ _ fs name t p L) by (try exact N; try exact I; unfold wbase; apply base_v; now left).
  assert (TE : type_of E (F ++ O) (var "e") = Some YEncoder).
  { unfold var. cbn [type_of]. rewrite (L (str "e") eq_refl eq_refl). unfold wbase. now rewrite (base_c ue ul "e" _ _ _ (or_introl eq_refl)). }
  rewrite TE. cbn [well_typed is_tmp tmps]. rewrite andb_true_r. 
  assert (NP : forall x, type_of E (F ++ O) (ECall1 (ESel (place_expr name p) (str "MarshalABI")) x) = None).
  { intros x. unfold place_expr. destruct (index p), (star p); reflexivity. }
  destruct (same_text name blank); [now rewrite NP|]. cbn [negb andb].
  destruct (place_type E p t) as [t'|] eqn:P; cbn [option_map]; [|now rewrite NP].
  rewrite same_text_refl. cbn [andb]. destruct (callable E t'); [|reflexivity].
  unfold all_fit. rewrite (err_ok E _ _ L) by apply base_err. reflexivity.
Qed.
Lemma block_of E G (F : tenv) name T s ok need B : accepted E B name T s ok need -> like B G -> (need = true -> has_i G) ->
  match check E [] G (go_code name T s) with Some _ => Some F | None => None end = if negb (same_text name blank) && ok then Some F else None.
Proof.
  intros A L I. rewrite (A [] G L I). cbn [app taken lookup]. replace (taken []) with false by reflexivity. rewrite andb_false_r, andb_true_r.
  destruct (_ && _); reflexivity.
Qed.
Lemma acc_array E B name T n s ok need : n < 2 ^ 63 -> accepted E B name T s ok need ->
  accepted E B name T (SWriteArray n s) ok false /\ accepted E B name T (SReadArray n s) ok false.
Proof.
  intros NB A. assert (X : forall F O, like B (F ++ O) -> check E F O (GFor (str "i") (ENum n) (go_code name T s)) =
     if negb (same_text name blank) && ok then Some F else None).
  { intros F O L. cbn [check type_of]. rewrite (proj2 (Z.ltb_lt n (2 ^ 63)) NB).
    apply (block_of E _ F name T s ok need B A); [now apply like_i|]. intros _. reflexivity. }
  split; intros F O L _; cbn [go_code is_tmp tmps]; rewrite (X F O L); cbn [andb negb app]; now rewrite andb_true_r.
Qed.
Lemma acc_write_slice E ue fs name T t p s ok need : (same_text name blank = false -> lookup name fs = Some t) -> index p = false ->
  (forall t', place_type E p t = Some t' -> is_slice E t' = has_len E t') ->
  accepted E (wbase ue true fs) name T s ok need ->
  accepted E (wbase ue true fs) name T (SWriteSlice p s) (match place_type E p t with Some t' => is_slice E t' | None => false end && ok) false.
Proof.
  intros N IP X A F O L _. cbn [go_code check is_tmp tmps]. rewrite andb_true_r.
  assert (LN : lookup (str "length") (F ++ O) = Some (YAt (TLeaf KInt))) by (rewrite (L (str "length") eq_refl eq_refl); destruct ue; reflexivity).
  assert (P : type_of E (F ++ O) (if star p then EStar (fld name) else fld name) = if same_text name blank then None else option_map YAt (place_type E p t)).
  { rewrite <- (check_place E _ _ fs name t p L) by (try exact N; unfold wbase; first [apply base_v; now left|congruence]).
    unfold place_expr. rewrite IP. destruct (star p); reflexivity. }
  assert (S1 : set_ok E (F ++ O) [var "length"] (ECall1 (var "len") (if star p then EStar (fld name) else fld name)) =
     negb (same_text name blank) && match place_type E p t with Some t' => is_slice E t' | None => false end).
  { unfold set_ok, types_of. unfold var at 2. cbn [type_of]. rewrite P. rewrite (L (str "len") eq_refl eq_refl). unfold wbase. rewrite base_none by (cbn; auto 10).
    destruct (same_text name blank); [reflexivity|]. destruct (place_type E p t) as [t'|]; [|reflexivity]. cbn [option_map negb andb].
    rewrite (X t' eq_refl). change (same_text (str "len") (str "len")) with true. cbv iota. destruct (has_len E t'); [|reflexivity]. cbn [option_map].
    unfold all_fit, fits, var. cbn [variable type_of]. rewrite LN. reflexivity. }
  rewrite S1. destruct (negb (same_text name blank)) eqn:NB; cbn [andb]; [|reflexivity].
  destruct (match place_type E p t with Some t' => is_slice E t' | None => false end); cbn [andb]; [|reflexivity].
  rewrite (check_checked E _ F O _ _ L) by (unfold wbase; first [apply base_err|apply base_none; cbn; auto]).
  assert (S2 : set_ok E (F ++ O) [var "err"] (ECall1 (ESel (var "e") (str "WriteVaruint")) (ECall1 (var "uint") (var "length"))) = true).
  { unfold set_ok, types_of. unfold var. cbn [type_of]. rewrite LN. rewrite (L (str "e") eq_refl eq_refl), (L (str "uint") eq_refl eq_refl). unfold wbase.
    rewrite (base_c ue true "e" _ _ _ (or_introl eq_refl)), base_none by (cbn; auto 10).
    change (same_text (str "uint") (str "len")) with false. change (same_text (str "uint") (str "uint")) with true. cbn [integer_kind]. cbv iota.
    change (method_kind "Write" (str "WriteVaruint")) with (Some KUint). cbv iota. cbn [identical same_kind].
    unfold same_kind. destruct (kind_dec KUint KUint); [|congruence]. unfold all_fit. change (EVar (str "err")) with (var "err"). rewrite (err_ok E _ _ L) by apply base_err. reflexivity. }
  rewrite S2. cbv iota. unfold var. cbn [type_of lookup]. change (same_text (str "length") (str "i")) with false. cbv iota. rewrite LN.
  rewrite (block_of E _ F name T s ok need _ A) by (try (now apply like_i); intros _; reflexivity). rewrite NB. reflexivity.
Qed.
Lemma acc_write_optional E ul fs name T t o s ok need : (same_text name blank = false -> lookup name fs = Some t) -> need = false ->
  match head E t with TPtr _ => true | _ => false end = nilable E t ->
  accepted E (wbase true ul fs) name T s ok need ->
  accepted E (wbase true ul fs) name T (SWriteOptional o s) (match head E t with TPtr _ => true | _ => false end && ok) false.
Proof.
  intros N -> X A F O L _. cbn [go_code check is_tmp tmps]. rewrite andb_true_r.
  assert (LN : lookup (str "exists") (F ++ O) = Some (YAt (TLeaf KBool))) by (rewrite (L (str "exists") eq_refl eq_refl); destruct ul; reflexivity).
  assert (S1 : set_ok E (F ++ O) [var "exists"] (ENe (fld name) (var "nil")) = negb (same_text name blank) && match head E t with TPtr _ => true | _ => false end).
  { unfold set_ok, types_of. cbn [type_of]. rewrite (check_field E _ _ fs name t L) by (try exact N; unfold wbase; apply base_v; now left).
    unfold var. cbn [type_of]. rewrite (L (str "nil") eq_refl eq_refl). unfold wbase. rewrite base_none by (cbn; auto 10).
    destruct (same_text name blank); [reflexivity|]. change (same_text (str "nil") (str "nil")) with true. cbv iota. cbn [negb andb]. rewrite X.
    destruct (nilable E t); [|reflexivity]. cbn [option_map]. unfold all_fit, fits. cbn [variable type_of]. rewrite LN. reflexivity. }
  rewrite S1. destruct (negb (same_text name blank)) eqn:NB; cbn [andb]; [|reflexivity].
  destruct (match head E t with TPtr _ => true | _ => false end); cbn [andb]; [|reflexivity].
  destruct o; cbn [check].
  - rewrite (check_checked E _ F O _ _ L) by (unfold wbase; first [apply base_err|apply base_none; cbn; auto]).
    assert (S2 : set_ok E (F ++ O) [var "err"] (ECall1 (ESel (var "e") (str "WriteBool")) (var "exists")) = true).
    { unfold set_ok, types_of. unfold var. cbn [type_of]. rewrite LN. rewrite (L (str "e") eq_refl eq_refl). unfold wbase.
      rewrite (base_c true ul "e" _ _ _ (or_introl eq_refl)). 
      change (method_kind "Write" (str "WriteBool")) with (Some KBool). cbv iota. cbn [identical]. 
      unfold same_kind. destruct (kind_dec KBool KBool); [|congruence]. unfold all_fit. change (EVar (str "err")) with (var "err"). rewrite (err_ok E _ _ L) by apply base_err. reflexivity. }
    rewrite S2. unfold var. cbn [type_of]. rewrite LN.
    rewrite (block_of E _ F name T s ok false _ A) by (try exact L; discriminate). rewrite NB. reflexivity.
  - unfold var. cbn [type_of]. rewrite LN. pose proof (block_of E (F ++ O) F name T s ok false _ A L ltac:(discriminate)) as BO. rewrite NB in BO.
    change (EVar (str "errors")) with (var "errors"). unfold var. cbn [app]. rewrite (L (str "errors") eq_refl eq_refl). unfold wbase at 1. rewrite base_none by (cbn; auto 10).
    destruct (check E [] (F ++ O) (go_code name T s)); cbn [andb] in BO; exact BO.
Qed.

(** ** Reading *)
Lemma decoder_typed E ue ul fs G : like (rbase ue ul fs) G -> type_of E G (var "d") = Some YDecoder.
Proof. intros L. unfold var. cbn [type_of]. rewrite (L (str "d") eq_refl eq_refl). unfold rbase. now rewrite (base_c ue ul "d" _ _ _ (or_intror eq_refl)). Qed.
Lemma acc_read E ue ul fs name T t k ix : (same_text name blank = false -> lookup name fs = Some t) -> go_kind k = true ->
  (forall t', place_type E {| star := false; index := ix |} t = Some t' -> is_kind E k t' = identical t' (TLeaf k)) ->
  accepted E (rbase ue ul fs) name T (SRead k {| star := false; index := ix |}) (well_typed E t (SRead k {| star := false; index := ix |})) ix.
Proof.
  intros N GK X F O L I. cbn [go_code]. rewrite (check_checked E _ F O _ _ L) by (unfold rbase; first [apply base_err|apply base_none; cbn; auto]).
  unfold set_ok, types_of. rewrite (decoder_typed E ue ul fs _ L).
  rewrite (method_read k GK). cbn [is_tmp tmps well_typed]. rewrite andb_true_r.
  assert (V : variable (place_expr name {| star := false; index := ix |}) = true) by (destruct ix; reflexivity).
  assert (Q : all_fit E (F ++ O) [place_expr name {| star := false; index := ix |}; var "err"] [YAt (TLeaf k); YErr] =
     negb (same_text name blank) && match place_type E {| star := false; index := ix |} t with Some t' => is_kind E k t' | None => false end).
  { unfold all_fit. rewrite (err_ok E _ _ L) by apply base_err. unfold fits. rewrite V.
    rewrite (check_place E _ _ fs name t _ L) by (try exact N; try exact I; unfold rbase; apply base_v; now right).
    destruct (same_text name blank); [reflexivity|]. destruct (place_type E _ t) as [t'|]; [|reflexivity]. cbn [option_map andb negb].
    rewrite (X t' eq_refl). now rewrite !andb_true_r. }
  destruct k; try discriminate GK; rewrite ?Q, ?andb_false_r; reflexivity.
Qed.
Lemma acc_unmarshal E ue ul fs name T t p : (same_text name blank = false -> lookup name fs = Some t) ->
  accepted E (rbase ue ul fs) name T (SUnmarshal p) (well_typed E t (SUnmarshal p)) (index p).
Proof.
  intros N F O L I. cbn [go_code]. rewrite (check_checked E _ F O _ _ L) by (unfold rbase; first [apply base_err|apply base_none; cbn; auto]).
  unfold set_ok, types_of. 
  rewrite (check_place E _ _ fs name t p L) by (try exact N; try exact I; unfold rbase; apply base_v; now right).
  assert (TE : type_of E (F ++ O) (var "d") = Some YDecoder).
  { unfold var. cbn [type_of]. rewrite (L (str "d") eq_refl eq_refl). unfold rbase. now rewrite (base_c ue ul "d" _ _ _ (or_intror eq_refl)). }
  rewrite TE. cbn [well_typed is_tmp tmps]. rewrite andb_true_r. 
  assert (NP : forall x, type_of E (F ++ O) (ECall1 (ESel (place_expr name p) (str "UnmarshalABI")) x) = None).
  { intros x. unfold place_expr. destruct (index p), (star p); reflexivity. }
  destruct (same_text name blank); [now rewrite NP|]. cbn [negb andb].
  destruct (place_type E p t) as [t'|] eqn:P; cbn [option_map]; [|now rewrite NP].
  rewrite same_text_refl. cbn [andb]. destruct (callable E t'); [|reflexivity].
  unfold all_fit. rewrite (err_ok E _ _ L) by apply base_err. reflexivity.
Qed.
Lemma acc_tmp E ue ul fs name T t k ix : (same_text name blank = false -> lookup name fs = Some t) -> go_kind k = true ->
  (k <> KGoBytes -> named_type T = Some (YAt (TLeaf k))) ->
  (forall t', place_type E {| star := false; index := ix |} t = Some t' ->
     match head E t' with TPtr u => is_kind E k u | _ => false end = identical t' (TPtr (TLeaf k))) ->
  accepted E (rbase ue ul fs) name T (SReadTmp k {| star := false; index := ix |}) (well_typed E t (SReadTmp k {| star := false; index := ix |})) ix.
Proof.
  intros N GK NT X F O L I. cbn [go_code check]. cbn [is_tmp andb]. unfold taken.
  destruct (lookup (str "tmp") F) as [y|] eqn:TK; [rewrite !andb_false_r; reflexivity|]. cbn [negb andb]. rewrite andb_true_r. cbn [tmps well_typed].
  set (p := {| star := false; index := ix |}) in *.
  assert (L' : forall y, like (rbase ue ul fs) (((str "tmp", y) :: F) ++ O)) by (intros y; cbn [app]; now apply like_tmp).
  assert (K : forall y, set_ok E (((str "tmp", y) :: F) ++ O) [var "tmp"; var "err"] (ECall0 (ESel (var "d") (str "Read" ++ method_name k))) =
     match k with KGoBytes => false | _ => fits E (((str "tmp", y) :: F) ++ O) (var "tmp") (YAt (TLeaf k)) end).
  { intros y. unfold set_ok, types_of. rewrite (decoder_typed E ue ul fs _ (L' y)). rewrite (method_read k GK).
    destruct k; try discriminate GK; try reflexivity; unfold all_fit; rewrite (err_ok E _ _ (L' y)) by apply base_err; cbn [andb]; now rewrite andb_true_r. }
  destruct (kind_dec k KGoBytes) as [->|NK].
  { rewrite andb_false_r. destruct (named_type T) as [y|]; [|reflexivity]. rewrite (check_checked E _ _ O _ _ (L' y)) by (unfold rbase; first [apply base_err|apply base_none; cbn; auto]). rewrite K. reflexivity. }
  rewrite (NT NK). rewrite (check_checked E _ _ O _ _ (L' _)) by (unfold rbase; first [apply base_err|apply base_none; cbn; auto]). rewrite K.
  assert (FT : fits E (((str "tmp", YAt (TLeaf k)) :: F) ++ O) (var "tmp") (YAt (TLeaf k)) = true).
  { unfold fits, var. cbn [variable type_of app lookup andb]. change (same_text (str "tmp") (str "tmp")) with true. cbv iota. cbn [identical]. unfold same_kind.
    destruct (kind_dec k k); [reflexivity|congruence]. }
  rewrite FT. replace (match k with KGoBytes => false | _ => true end) with true by (destruct k; congruence).
  assert (W : match k with KGoBytes => false | _ => match place_type E p t with Some t' => match head E t' with TPtr t' => is_kind E k t' | _ => false end | None => false end end
    = match place_type E p t with Some t' => match head E t' with TPtr t' => is_kind E k t' | _ => false end | None => false end) by (destruct k; congruence).
  rewrite W. clear W.
  assert (V : variable (place_expr name p) = true) by (unfold p; destruct ix; reflexivity).
  assert (I' : index p = true -> has_i (((str "tmp", YAt (TLeaf k)) :: F) ++ O)).
  { intros Y. unfold has_i. cbn [app lookup]. change (same_text (str "i") (str "tmp")) with false. cbv iota. exact (I Y). }
  assert (S3 : set_ok E (((str "tmp", YAt (TLeaf k)) :: F) ++ O) [place_expr name p] (EAddr (var "tmp")) =
    negb (same_text name blank) && match place_type E p t with Some t' => match head E t' with TPtr t' => is_kind E k t' | _ => false end | None => false end).
  { unfold set_ok, types_of. unfold var. cbn [type_of]. cbn [app lookup]. change (same_text (str "tmp") (str "tmp")) with true. cbv iota. cbn [option_map].
    unfold all_fit, fits. rewrite V. change ((str "tmp", YAt (TLeaf k)) :: F ++ O) with (((str "tmp", YAt (TLeaf k)) :: F) ++ O).
    rewrite (check_place E _ _ fs name t p (L' _)) by (try exact N; try exact I'; unfold rbase; apply base_v; now right).
    destruct (same_text name blank); [reflexivity|]. destruct (place_type E p t) as [t'|]; [|reflexivity]. cbn [option_map andb negb].
    rewrite (X t' eq_refl). now rewrite !andb_true_r. }
  rewrite S3. cbn [app]. destruct (_ && _); reflexivity.
Qed.
Lemma acc_read_slice E ue fs name T t s ok need : (same_text name blank = false -> lookup name fs = Some t) ->
  (forall u, head E t = TSlice u -> names_type T u = true) -> (head E t = TLeaf KGoBytes -> names_type T (TLeaf KU8) = true) ->
  accepted E (rbase ue true fs) name T s ok need ->
  accepted E (rbase ue true fs) name T (SReadSlice s) (is_slice E t && ok) false.
Proof.
  intros N X1 X2 A F O L _. cbn [go_code check is_tmp tmps]. rewrite andb_true_r.
  assert (LN : lookup (str "length") (F ++ O) = Some (YAt (TLeaf KUint))) by (rewrite (L (str "length") eq_refl eq_refl); destruct ue; reflexivity).
  rewrite (check_checked E _ F O _ _ L) by (unfold rbase; first [apply base_err|apply base_none; cbn; auto]).
  assert (S1 : set_ok E (F ++ O) [var "length"; var "err"] (ECall0 (ESel (var "d") (str "ReadVaruint"))) = true).
  { unfold set_ok, types_of. rewrite (decoder_typed E ue true fs _ L). change (method_kind "Read" (str "ReadVaruint")) with (Some KUint). cbv iota.
    unfold all_fit. rewrite (err_ok E _ _ L) by apply base_err. unfold fits, var. cbn [variable type_of]. rewrite LN. reflexivity. }
  rewrite S1.
  assert (S2 : set_ok E (F ++ O) [fld name] (EMake T (var "length")) = negb (same_text name blank) && is_slice E t).
  { unfold set_ok. rewrite (check_field E _ _ fs name t L) by (try exact N; unfold rbase; apply base_v; now right).
    unfold var. cbn [type_of]. rewrite LN. unfold fld. cbn [variable andb]. destruct (same_text name blank); [reflexivity|]. cbn [integer_kind andb negb]. unfold is_slice.
    destruct (head E t) as [k| | | |u| | | | |]; try reflexivity; [destruct k; try reflexivity; apply X2; reflexivity|apply X1; reflexivity]. }
  rewrite S2. destruct (negb (same_text name blank)) eqn:NB; cbn [andb]; [|reflexivity]. destruct (is_slice E t); cbn [andb]; [|reflexivity].
  unfold var. cbn [type_of lookup]. change (same_text (str "length") (str "i")) with false. change (same_text (str "int") (str "i")) with false. cbv iota. rewrite LN.
  rewrite (L (str "int") eq_refl eq_refl). unfold rbase at 1. rewrite base_none by (cbn; auto 10).
  change (same_text (str "int") (str "len")) with false. change (same_text (str "int") (str "uint")) with false. change (same_text (str "int") (str "int")) with true.
  cbn [integer_kind]. cbv iota.
  rewrite (block_of E _ F name T s ok need _ A) by (try (now apply like_i); intros _; reflexivity). rewrite NB. reflexivity.
Qed.
Lemma acc_read_optional E ul fs name T s ok need : need = false -> accepted E (rbase true ul fs) name T s ok need ->
  accepted E (rbase true ul fs) name T (SReadOptional s) ok false.
Proof.
  intros -> A F O L _. cbn [go_code check is_tmp tmps]. rewrite andb_true_r.
  assert (LN : lookup (str "exists") (F ++ O) = Some (YAt (TLeaf KBool))) by (rewrite (L (str "exists") eq_refl eq_refl); destruct ul; reflexivity).
  rewrite (check_checked E _ F O _ _ L) by (unfold rbase; first [apply base_err|apply base_none; cbn; auto]).
  assert (S1 : set_ok E (F ++ O) [var "exists"; var "err"] (ECall0 (ESel (var "d") (str "ReadBool"))) = true).
  { unfold set_ok, types_of. rewrite (decoder_typed E true ul fs _ L). change (method_kind "Read" (str "ReadBool")) with (Some KBool). cbv iota.
    unfold all_fit. rewrite (err_ok E _ _ L) by apply base_err. unfold fits, var. cbn [variable type_of]. rewrite LN. reflexivity. }
  rewrite S1. unfold var. cbn [type_of]. rewrite LN.
  rewrite (block_of E _ F name T s ok false _ A) by (try exact L; discriminate). reflexivity.
Qed.

(** ** A field *)
Lemma same_kind_sym a b : same_kind a b = same_kind b a.
Proof. unfold same_kind. destruct (kind_dec a b), (kind_dec b a); congruence. Qed.
Lemma own_identical E t k : own_kind t = Some k -> is_kind E k t = identical t (TLeaf k).
Proof.
  intros O. destruct t as [k'| | | |u| | | | |]; try discriminate O; [|reflexivity].
  unfold is_kind, identical. cbn [head]. rewrite same_kind_sym. reflexivity.
Qed.
Lemma found t tg f : classify (type_text t) tg = Ok f -> exists text, f = field_of t (is_optional tg) text.
Proof. intros C. pose proof (classify_text t tg) as X. destruct (_ && _); destruct X as (z & X); [congruence|]. exists z. congruence. Qed.
Lemma parsed_bound n : parsed_len n < 2 ^ 63.
Proof.
  unfold parsed_len. destruct (ParseInt _ _) as [v|e|m] eqn:P; try lia. apply ParseInt_ok in P as [_ B]; lia.
Qed.
Lemma found_bound t opt text : f_len (field_of t opt text) < 2 ^ 63.
Proof.
  unfold field_of. destruct t as [k| | |u| | | | | |]; cbn [shape_of body_of]; try (cbn; lia); try apply parsed_bound.
  - destruct k; cbn; lia.
  - destruct u as [k| | | | | | | | |]; cbn [body_of]; try (cbn; lia); try apply parsed_bound. destruct k; cbn; lia.
Qed.
Lemma whole_place E t opt text k t' : f_method (field_of t opt text) = Some k ->
  place_type E {| star := f_ptr (field_of t opt text); index := f_slice (field_of t opt text) || f_array (field_of t opt text) |} t = Some t' ->
  own_kind t' = Some k.
Proof.
  assert (B : forall u, snd (body_of u) = Some k ->
    (if fst (fst (fst (body_of u))) || snd (fst (fst (body_of u))) then element_type E u else Some u) = Some t' -> own_kind t' = Some k).
  { intros u M P. destruct u as [k'| | |u|u|n u| | | |]; try discriminate M.
    - destruct k'; cbn in M, P; try discriminate M; injection P as <-; injection M as <-; reflexivity.
    - cbn in M, P. injection P as <-. exact M.
    - cbn in M, P. injection P as <-. exact M. }
  unfold field_of, place_type. destruct t as [k'| | |u|u|n u| | | |]; cbn [shape_of]; intros M P;
    try (destruct (body_of _) as [[[s a] n'] m] eqn:Q; cbn [f_method f_ptr f_slice f_array star index] in M, P;
         first [apply (B u); rewrite Q; cbn [fst snd]; assumption|eapply B; [rewrite Q; exact M|rewrite Q; cbn [fst snd]; exact P]]).
Qed.
Lemma tmp_place E t opt text k t' : f_method (field_of t opt text) = Some k -> f_ptr (field_of t opt text) = true ->
  place_type E {| star := false; index := f_slice (field_of t opt text) || f_array (field_of t opt text) |} t = Some t' ->
  match head E t' with TPtr u => is_kind E k u | _ => false end = identical t' (TPtr (TLeaf k)).
Proof.
  unfold field_of, place_type. destruct t as [k'| | |u|u|n u| | | |]; cbn [shape_of]; intros M PT P;
    try (destruct (body_of _) as [[[s a] n'] m]; discriminate PT).
  assert (PK : forall x, own_kind x = Some k -> match head E (TPtr x) with TPtr u => is_kind E k u | _ => false end = identical (TPtr x) (TPtr (TLeaf k))).
  { intros x O. change (head E (TPtr x)) with (TPtr x). cbv iota. rewrite (own_identical E x k O). destruct x; try discriminate O; reflexivity. }
  assert (NK : forall x, own_kind x = Some k -> match head E x with TPtr u => is_kind E k u | _ => false end = identical x (TPtr (TLeaf k))).
  { intros x O. destruct x as [k'| | | |x| | | | |]; try discriminate O; [|reflexivity]. reflexivity. }
  destruct u as [k'| | |u|u|n u| | | |]; cbn in M, P; try discriminate M.
  - destruct k'; cbn in M, P; try discriminate M; try discriminate P; injection P as <-; apply PK; exact M.
  - discriminate P.
  - injection P as <-. apply NK. exact M.
Qed.
Lemma slice_place E t opt text : f_slice (field_of t opt text) = true ->
  forall t', place_type E {| star := f_ptr (field_of t opt text); index := false |} t = Some t' -> is_slice E t' = has_len E t'.
Proof.
  assert (B : forall u, fst (fst (fst (body_of u))) = true -> is_slice E u = has_len E u).
  { intros u H. destruct u as [k| | | | | | | | |]; try discriminate H; [destruct k; try discriminate H|]; reflexivity. }
  unfold field_of, place_type. destruct t as [k'| | |u|u|n u| | | |]; cbn [shape_of]; intros FS t' P;
    try (destruct (body_of _) as [[[s a] n'] m] eqn:Q; cbn [f_slice f_ptr star index] in FS, P; subst s; 
         cbn in P; injection P as <-; apply B; rewrite Q; reflexivity).
Qed.
Lemma pointer_nilable E t opt text : (opt = true -> pointer t = true) -> f_optional (field_of t opt text) || f_ptr (field_of t opt text) = true ->
  match head E t with TPtr _ => true | _ => false end = nilable E t.
Proof.
  intros H X. assert (P : pointer t = true).
  { unfold field_of in X. destruct t as [k'| | |u|u|n u| | | |]; cbn [shape_of] in X; try reflexivity; apply H;
      destruct (body_of _) as [[[s a] n'] m]; cbn [f_optional f_ptr] in X; now rewrite orb_false_r in X. }
  destruct t; try discriminate P. reflexivity.
Qed.
Lemma accepted_weaken E B name T s ok : accepted E B name T s ok false -> forall need, accepted E B name T s ok need.
Proof. intros A need F O L _. apply A; [exact L|discriminate]. Qed.

Lemma write_field E ue ul fs name T t tg f : (same_text name blank = false -> lookup name fs = Some t) -> classify (type_text t) tg = Ok f ->
  (wflag f = true -> ue = true) -> (f_slice f = true -> ul = true) ->
  accepted E (wbase ue ul fs) name T (gen_write f) (well_typed E t (gen_write f)) false.
Proof.
  intros N CF UE UL. destruct (classified t tg f CF) as (M & _ & _). destruct (found t tg f CF) as (text & FF).
  assert (OP : is_optional tg = true -> pointer t = true).
  { intros H. pose proof (classify_text t tg) as X. rewrite H in X. destruct (pointer t); [reflexivity|]. destruct X as (m & X). congruence. }
  assert (PN := pointer_nilable E t (is_optional tg) text OP). assert (SP := slice_place E t (is_optional tg) text).
  assert (WP := whole_place E t (is_optional tg) text). assert (LB := found_bound t (is_optional tg) text). rewrite <- FF in *. clear FF CF.
  unfold gen_write.
  assert (Bk : forall need, need = f_slice f || f_array f ->
    accepted E (wbase ue ul fs) name T (match f_method f with Some k => SWrite k {| star := f_ptr f; index := need |} | None => SMarshal {| star := f_ptr f && need; index := need |} end)
      (well_typed E t (match f_method f with Some k => SWrite k {| star := f_ptr f; index := need |} | None => SMarshal {| star := f_ptr f && need; index := need |} end)) need).
  { intros need NE. destruct (f_method f) as [k|] eqn:FM.
    - apply (acc_write E ue ul fs name T t k {| star := f_ptr f; index := need |} N (method_go _ _ (eq_sym M))).
      intros t' P. apply own_identical. apply WP; [reflexivity|]. rewrite <- NE. exact P.
    - exact (acc_marshal E ue ul fs name T t {| star := f_ptr f && need; index := need |} N). }
  specialize (Bk _ eq_refl). set (code := match f_method f with Some k => _ | None => _ end) in *. clearbody code.
  assert (S : accepted E (wbase ue ul fs) name T (if f_slice f then SWriteSlice {| star := f_ptr f; index := false |} code else code)
     (well_typed E t (if f_slice f then SWriteSlice {| star := f_ptr f; index := false |} code else code)) (f_array f)).
  { destruct (f_slice f) eqn:FS; [|exact Bk]. rewrite (UL eq_refl) in *. cbn [well_typed]. apply accepted_weaken.
    exact (acc_write_slice E ue fs name T t {| star := f_ptr f; index := false |} code _ true N eq_refl (SP eq_refl) Bk). }
  set (c1 := if f_slice f then _ else code) in *. clearbody c1. clear Bk.
  assert (A : accepted E (wbase ue ul fs) name T (if f_array f then SWriteArray (f_len f) c1 else c1) (well_typed E t (if f_array f then SWriteArray (f_len f) c1 else c1)) false).
  { destruct (f_array f); [|exact S]. exact (proj1 (acc_array E _ name T (f_len f) c1 _ true LB S)). }
  set (c2 := if f_array f then _ else c1) in *. clearbody c2. clear S.
  unfold wflag in UE. destruct (f_optional f || f_ptr f); [|exact A]. rewrite (UE eq_refl) in *.
  exact (acc_write_optional E ul fs name T t (f_optional f) c2 _ false N eq_refl (PN eq_refl) A).
Qed.
Lemma read_field E ue ul fs name t tg f : (same_text name blank = false -> lookup name fs = Some t) -> classify (type_text t) tg = Ok f ->
  (f_optional f = true -> ue = true) -> (f_slice f = true -> ul = true) ->
  accepted E (rbase ue ul fs) name (type_tokens (f_type f)) (gen_read f) (well_typed E t (gen_read f)) false.
Proof.
  intros N CF UE UL. destruct (classified t tg f CF) as (M & _ & _). destruct (found t tg f CF) as (text & FF).
  pose proof (slice_text E t tg f CF) as ST. set (T := type_tokens (f_type f)) in *.
  assert (WP := whole_place E t (is_optional tg) text). assert (TP := tmp_place E t (is_optional tg) text).
  assert (LB := found_bound t (is_optional tg) text). rewrite <- FF in *. clear FF CF. unfold gen_read.
  assert (Bk : forall need, need = f_slice f || f_array f -> forall code,
    code = match f_method f with Some k => (if f_ptr f then SReadTmp else SRead) k {| star := false; index := need |} | None => SUnmarshal {| star := f_ptr f && need; index := need |} end ->
    accepted E (rbase ue ul fs) name T code (well_typed E t code) need).
  { intros need NE code ->. destruct (f_method f) as [k|] eqn:FM.
    - pose proof (method_go _ _ (eq_sym M)) as GK. destruct (f_ptr f) eqn:FP.
      + apply (acc_tmp E ue ul fs name T t k need N GK).
        * intros NB. destruct (method_variable _ _ (eq_sym M) NB) as (z & ZV). unfold named_type, T. now rewrite ZV.
        * intros t' P. apply TP; [reflexivity|reflexivity|]. rewrite <- NE. exact P.
      + apply (acc_read E ue ul fs name T t k need N GK). intros t' P. apply own_identical. apply WP; [reflexivity|]. rewrite <- NE. exact P.
    - exact (acc_unmarshal E ue ul fs name T t {| star := f_ptr f && need; index := need |} N). }
  specialize (Bk _ eq_refl _ eq_refl). set (code := match f_method f with Some k => _ | None => _ end) in *. clearbody code.
  assert (S : accepted E (rbase ue ul fs) name T (if f_slice f then SReadSlice code else code) (well_typed E t (if f_slice f then SReadSlice code else code)) (f_array f)).
  { destruct (f_slice f) eqn:FS; [|exact Bk]. rewrite (UL eq_refl) in *. cbn [well_typed]. apply accepted_weaken.
    apply (acc_read_slice E ue fs name T t code _ true N); [| |exact Bk].
    - intros u H. assert (SL : is_slice E t = true) by (unfold is_slice; now rewrite H). destruct (ST eq_refl SL) as (u' & ET & TX).
      unfold element_type in ET. rewrite H in ET. injection ET as <-. unfold names_type, T. rewrite TX. now destruct (list_eq_dec _ _ _).
    - intros H. assert (SL : is_slice E t = true) by (unfold is_slice; now rewrite H). destruct (ST eq_refl SL) as (u' & ET & TX).
      unfold element_type in ET. rewrite H in ET. injection ET as <-. unfold names_type, T. rewrite TX. now destruct (list_eq_dec _ _ _). }
  set (c1 := if f_slice f then _ else code) in *. clearbody c1. clear Bk.
  assert (A : accepted E (rbase ue ul fs) name T (if f_array f then SReadArray (f_len f) c1 else c1) (well_typed E t (if f_array f then SReadArray (f_len f) c1 else c1)) false).
  { destruct (f_array f); [|exact S]. exact (proj2 (acc_array E _ name T (f_len f) c1 _ true LB S)). }
  set (c2 := if f_array f then _ else c1) in *. clearbody c2. clear S.
  destruct (f_optional f); [|exact A]. rewrite (UE eq_refl) in *.
  exact (acc_read_optional E ul fs name T c2 _ false eq_refl A).
Qed.

(** ** A function *)
Definition yes {A} (o : option A) : bool := match o with Some _ => true | None => false end.
Lemma check_fields E B (code : ident * field -> stmt) (ok : ident * field -> bool) nf :
  (forall nm, In nm nf -> accepted E B (fst nm) (type_tokens (f_type (snd nm))) (code nm) (ok nm) false) ->
  forall F, like B F -> lookup (str "err") B = Some YErr ->
  yes (check E F [] (GSeq (sequence (map (fun nm => go_code (fst nm) (type_tokens (f_type (snd nm))) (code nm)) nf)) (GReturn (var "err")))) =
  forallb (fun nm => negb (same_text (fst nm) blank) && ok nm) nf && (length (filter is_tmp (map code nf)) + (if taken F then 1 else 0) <=? 1)%nat.
Proof.
  induction nf as [|nm nf IH]; intros A F L EB.
  - cbn [map sequence check filter length forallb andb]. unfold var. cbn [type_of]. rewrite app_nil_r, (L (str "err") eq_refl eq_refl), EB. cbn [yes].
    destruct (taken F); reflexivity.
  - cbn [map sequence forallb filter]. specialize (IH (fun x I => A x (or_intror I))).
    pose proof (A nm (or_introl eq_refl) F [] ltac:(rewrite app_nil_r; exact L) ltac:(discriminate)) as X.
    assert (Q : forall a b c, check E F [] (GSeq (GSeq a b) c) = match check E F [] a with Some F => check E F [] (GSeq b c) | None => None end).
    { intros a b c. cbn [check]. now destruct (check E F [] a). }
    rewrite Q, X. destruct (negb (same_text (fst nm) blank) && ok nm); cbn [andb]; [|reflexivity].
    unfold tmps. destruct (code nm) eqn:CD; cbn [is_tmp andb negb]; try (cbn [app]; exact (IH F L EB)).
    destruct (taken F) eqn:TK; cbn [negb].
    + cbn [yes length]. symmetry. apply andb_false_iff. right. apply Nat.leb_gt. lia.
    + cbn [app]. rewrite IH by (try exact EB; now apply like_tmp). f_equal. cbn [length]. unfold taken. cbn [lookup].
      change (same_text (str "tmp") (str "tmp")) with true. cbv iota. destruct (Nat.leb_spec (length (filter is_tmp (map code nf)) + 1) 1), (Nat.leb_spec (S (length (filter is_tmp (map code nf))) + 0) 1); try reflexivity; lia.
Qed.

(** ** Variables that are used *)
Lemma has_app x a b : has x (a ++ b) = has x a || has x b.
Proof. apply existsb_app. Qed.
Lemma has_without x xs l : has x (without xs l) = has x l && negb (has x xs).
Proof.
  induction l as [|y l IH]; [reflexivity|]. unfold without in *. cbn [filter has existsb]. fold (has x l).
  destruct (negb (has y xs)) eqn:Y; cbn [existsb]; fold (has x (filter (fun x => negb (has x xs)) l)); rewrite IH; destruct (same_text x y) eqn:S; cbn [orb]; try reflexivity.
  - apply same_text_iff in S. subst. now rewrite Y.
  - apply same_text_iff in S. subst. rewrite Y. now rewrite andb_false_r.
Qed.
Lemma all_used_code name T s : forall K, all_used (go_code name T s) K = true.
Proof.
  induction s as [k p|p|p b IH|n b IH|o b IH|k p|k p|p|b IH|n b IH|b IH]; intros K; cbn [go_code all_used checked]; rewrite ?IH; try reflexivity.
  - destruct o; cbn [all_used checked]; rewrite ?IH; reflexivity.
  - cbn [free declares]. rewrite !andb_true_r. rewrite !has_app, !has_without, !has_app. cbn [declares]. unfold checked. cbn [declares free].
    assert (U : has (str "tmp") (set_uses [place_expr name p] (EAddr (var "tmp"))) = true).
    { unfold set_uses. rewrite has_app. cbn [uses var]. replace (has (str "tmp") [str "tmp"]) with true by reflexivity. apply orb_true_r. }
    rewrite U. cbn [andb negb has existsb]. rewrite !orb_true_r. reflexivity.
Qed.
Lemma declared_code name T s : declares (go_code name T s) = if is_tmp s then [str "tmp"] else [].
Proof. destruct s as [k p|p|p b|n b|o b|k p|k p|p|b|n b|b]; try reflexivity. destruct o; reflexivity. Qed.
Lemma declared_fields (g : ident * field -> ident * list token * stmt) nf x :
  same_text x (str "tmp") = false -> has x (declares (sequence (map (fun nm => let '(n, T, s) := g nm in go_code n T s) nf))) = false.
Proof.
  intros H. induction nf as [|nm nf IH]; [reflexivity|]. cbn [map sequence declares]. destruct (g nm) as [[n T] s]. rewrite has_app, IH, declared_code.
  destruct (is_tmp s); [|reflexivity]. cbn [has existsb]. now rewrite H.
Qed.
Lemma free_fields (g : ident * field -> ident * list token * stmt) nf x : same_text x (str "tmp") = false ->
  has x (free (sequence (map (fun nm => let '(n, T, s) := g nm in go_code n T s) nf))) = existsb (fun nm => let '(n, T, s) := g nm in has x (free (go_code n T s))) nf.
Proof.
  intros H. induction nf as [|nm nf IH]; [reflexivity|]. cbn [map sequence free existsb]. rewrite has_app, has_without, IH. destruct (g nm) as [[n T] s].
  rewrite declared_code. replace (has x (if is_tmp s then [str "tmp"] else [])) with false; [now rewrite andb_true_r|].
  destruct (is_tmp s); [|reflexivity]. cbn [has existsb]. now rewrite H.
Qed.
Lemma all_used_fields (g : ident * field -> ident * list token * stmt) nf K :
  all_used (sequence (map (fun nm => let '(n, T, s) := g nm in go_code n T s) nf)) K = true.
Proof. revert K. induction nf as [|nm nf IH]; intros K; [reflexivity|]. cbn [map sequence all_used]. rewrite IH. destruct (g nm) as [[n T] s]. now rewrite all_used_code. Qed.
Lemma all_used_body ue ul lt (g : ident * field -> ident * list token * stmt) nf :
  let code := sequence (map (fun nm => let '(n, T, s) := g nm in go_code n T s) nf) in
  all_used (body ue ul lt code) [] = implb ue (existsb (fun nm => let '(n, T, s) := g nm in has (str "exists") (free (go_code n T s))) nf)
    && implb ul (existsb (fun nm => let '(n, T, s) := g nm in has (str "length") (free (go_code n T s))) nf).
Proof.
  intros code. unfold body.
  assert (R : forall x, same_text x (str "tmp") = false -> has x (free (GSeq code (GReturn (var "err")))) =
     existsb (fun nm => let '(n, T, s) := g nm in has x (free (go_code n T s))) nf || same_text x (str "err")).
  { intros x H. cbn [free]. rewrite has_app, has_without. unfold code. rewrite free_fields, declared_fields by exact H. cbn [uses var has existsb]. now rewrite orb_false_r, andb_true_r. }
  assert (U : all_used (GSeq code (GReturn (var "err"))) [] = true).
  { cbn [all_used]. unfold code. now rewrite all_used_fields. }
  set (Z := GSeq code (GReturn (var "err"))) in *. clearbody Z.
  assert (V : forall b x ty W, free (GSeq (if b : bool then GVar (str x) ty else GSkip) W) = without (if b then [str x] else []) (free W)) by (intros [|] x ty W; reflexivity).
  assert (A : forall b x ty W, all_used (GSeq (if b : bool then GVar (str x) ty else GSkip) W) [] = implb b (has (str x) (free W)) && all_used W []).
  { intros [|] x ty W; cbn [all_used implb]; [|reflexivity]. rewrite has_app. cbn [without filter has existsb]. now rewrite orb_false_r. }
  assert (A0 : forall x ty W, all_used (GSeq (GVar (str x) ty) W) [] = has (str x) (free W) && all_used W []) by (intros x ty W; exact (A true x ty W)).
  rewrite A0, !A, U, !V, !has_without, !R by reflexivity.
  change (same_text (str "err") (str "err")) with true. change (same_text (str "exists") (str "err")) with false. change (same_text (str "length") (str "err")) with false.
  rewrite !orb_false_r, !orb_true_r, !andb_true_r.
  replace (has (str "err") (if ul then [str "length"] else [])) with false by (destruct ul; reflexivity).
  replace (has (str "err") (if ue then [str "exists"] else [])) with false by (destruct ue; reflexivity).
  replace (has (str "exists") (if ul then [str "length"] else [])) with false by (destruct ul; reflexivity).
  cbn [negb andb]. now rewrite !andb_true_r.
Qed.
Lemma existsb_ext_in {A} (p q : A -> bool) l : (forall x, In x l -> p x = q x) -> existsb p l = existsb q l.
Proof. induction l as [|x l IH]; intros H; [reflexivity|]. cbn [existsb]. rewrite (H x (or_introl eq_refl)), IH; [reflexivity|]. intros y I. apply H. now right. Qed.
Lemma implb_same b : implb b b = true.
Proof. now destruct b. Qed.
Lemma write_uses name T f : has (str "exists") (free (go_code name T (gen_write f))) = f_optional f || f_ptr f
  /\ has (str "length") (free (go_code name T (gen_write f))) = f_slice f.
Proof. unfold gen_write. destruct f as [ty p o sl a n m]. cbn [f_optional f_ptr f_slice f_array f_method f_len]. destruct p, o, sl, a, m; split; reflexivity. Qed.
Lemma read_uses name T f : has (str "exists") (free (go_code name T (gen_read f))) = f_optional f
  /\ has (str "length") (free (go_code name T (gen_read f))) = f_slice f.
Proof. unfold gen_read. destruct f as [ty p o sl a n m]. cbn [f_optional f_ptr f_slice f_array f_method f_len]. destruct p, o, sl, a, m; split; reflexivity. Qed.

(** ** The two functions *)
Lemma marshal_used struct nf : all_used (g_body (marshal_func struct nf)) [] = implb (existsb (fun '(_, f) => f_slice f || f_array f) nf) (existsb (fun '(_, f) => f_slice f) nf).
Proof.
  unfold marshal_func. cbn [g_body].
  pose proof (all_used_body (existsb (fun '(_, f) => f_optional f || f_ptr f) nf) (existsb (fun '(_, f) => f_slice f || f_array f) nf) "int"
    (fun nm => (fst nm, type_tokens (f_type (snd nm)), gen_write (snd nm))) nf) as X. cbv zeta in X.
  rewrite (map_ext (fun '(name, f) => go_code name (type_tokens (f_type f)) (gen_write f)) (fun nm => go_code (fst nm) (type_tokens (f_type (snd nm))) (gen_write (snd nm)))) by now intros [n f].
  rewrite X. clear X.
  assert (E1 : existsb (fun nm : ident * field => has (str "exists") (free (go_code (fst nm) (type_tokens (f_type (snd nm))) (gen_write (snd nm))))) nf = existsb (fun '(_, f) => f_optional f || f_ptr f) nf)
    by (apply existsb_ext_in; intros [n f] _; apply write_uses).
  assert (E2 : existsb (fun nm : ident * field => has (str "length") (free (go_code (fst nm) (type_tokens (f_type (snd nm))) (gen_write (snd nm))))) nf = existsb (fun '(_, f) => f_slice f) nf)
    by (apply existsb_ext_in; intros [n f] _; apply write_uses).
  rewrite E1, E2.
  now rewrite implb_same.
Qed.
Lemma unmarshal_used struct nf : all_used (g_body (unmarshal_func struct nf)) [] = true.
Proof.
  unfold unmarshal_func. cbn [g_body].
  pose proof (all_used_body (existsb (fun '(_, f) => f_optional f) nf) (existsb (fun '(_, f) => f_slice f) nf) "uint"
    (fun nm => (fst nm, type_tokens (f_type (snd nm)), gen_read (snd nm))) nf) as X. cbv zeta in X.
  rewrite (map_ext (fun '(name, f) => go_code name (type_tokens (f_type f)) (gen_read f)) (fun nm => go_code (fst nm) (type_tokens (f_type (snd nm))) (gen_read (snd nm)))) by now intros [n f].
  rewrite X. clear X.
  assert (E1 : existsb (fun nm : ident * field => has (str "exists") (free (go_code (fst nm) (type_tokens (f_type (snd nm))) (gen_read (snd nm))))) nf = existsb (fun '(_, f) => f_optional f) nf)
    by (apply existsb_ext_in; intros [n f] _; apply read_uses).
  assert (E2 : existsb (fun nm : ident * field => has (str "length") (free (go_code (fst nm) (type_tokens (f_type (snd nm))) (gen_read (snd nm))))) nf = existsb (fun '(_, f) => f_slice f) nf)
    by (apply existsb_ext_in; intros [n f] _; apply read_uses).
  rewrite E1, E2.
  now rewrite !implb_same.
Qed.
Lemma check_body E ue ul c y lt lk fs code : str c = str "e" \/ str c = str "d" -> named_type [word lt] = Some (YAt (TLeaf lk)) ->
  check E [(str c, y); (str "v", YFields fs)] [] (body ue ul lt code) = check E (base ue ul c y lk fs) [] (GSeq code (GReturn (var "err"))).
Proof.
  intros C LT. unfold body. cbn [check]. 
  replace (lookup (str "err") [(str c, y); (str "v", YFields fs)]) with (@None gty) by (destruct C as [-> | ->]; reflexivity).
  change (named_type [word "error"]) with (Some YErr). cbv iota.
  destruct ue; cbn [check].
  - change (named_type [word "bool"]) with (Some (YAt (TLeaf KBool))). cbn [lookup].
    replace (same_text (str "exists") (str c)) with false by (destruct C as [-> | ->]; reflexivity).
    change (same_text (str "exists") (str "err")) with false. change (same_text (str "exists") (str "v")) with false. cbv iota.
    destruct ul; cbn [check]; [|reflexivity]. rewrite LT. cbn [lookup].
    replace (same_text (str "length") (str c)) with false by (destruct C as [-> | ->]; reflexivity). reflexivity.
  - destruct ul; cbn [check]; [|reflexivity]. rewrite LT. cbn [lookup].
    replace (same_text (str "length") (str c)) with false by (destruct C as [-> | ->]; reflexivity). reflexivity.
Qed.
Lemma like_refl B : like B B.
Proof. intros x _ _. reflexivity. Qed.
Lemma base_taken ue ul c y lk fs : str c = str "e" \/ str c = str "d" -> taken (base ue ul c y lk fs) = false.
Proof. unfold base, taken. intros [-> | ->]; destruct ue, ul; reflexivity. Qed.
Lemma no_tmp nf : length (filter is_tmp (map (fun nm : ident * field => gen_write (snd nm)) nf)) = 0%nat.
Proof.
  induction nf as [|[n f] nf IH]; [reflexivity|]. cbn [map filter snd]. replace (is_tmp (gen_write f)) with false; [exact IH|].
  unfold gen_write. destruct (f_optional f || f_ptr f), (f_array f), (f_slice f), (f_method f); reflexivity.
Qed.

Definition fits_name (n : ident) (g : tag * visibility * gtype) : Prop := snd (fst g) = Blank <-> n = blank.
Lemma lookup_combine (names : list ident) (fs : list (tag * visibility * gtype)) : NoDup (filter (fun n => negb (same_text n blank)) names) -> length names = length fs ->
  forall n g, In (n, g) (combine names fs) -> same_text n blank = false -> lookup n (combine names (map snd fs)) = Some (snd g).
Proof.
  revert fs. induction names as [|m names IH]; intros [|h fs] ND L n g I NB; try discriminate L; [contradiction|].
  cbn [combine map lookup In] in *. destruct I as [I|I].
  - injection I as -> ->. now rewrite same_text_refl.
  - destruct (same_text n m) eqn:S.
    + exfalso. apply same_text_iff in S. subst m. cbn [filter] in ND. rewrite NB in ND. cbn [negb] in ND. apply NoDup_cons_iff in ND as [NI _]. apply NI.
      apply filter_In. split; [exact (in_combine_l _ _ _ _ I)|]. now rewrite NB.
    + apply IH; [|now injection L|exact I|exact NB]. cbn [filter] in ND. destruct (negb (same_text m blank)); [|exact ND]. now apply NoDup_cons_iff in ND as [_ ND].
Qed.
(** The names, the fields of the struct and what was found about them, together. *)
Lemma zipped (names : list ident) (fs : list (tag * visibility * gtype)) fl : Forall2 (fun '(tg, _, t) f => classify (type_text t) tg = Ok f) fs fl -> length names = length fs ->
  forall n f, In (n, f) (combine names fl) -> exists tg vis t, In (n, (tg, vis, t)) (combine names fs) /\ classify (type_text t) tg = Ok f.
Proof.
  intros C. revert names. induction C as [|[[tg vis] t] f0 fs fl CF _ IH]; intros [|m names] L n f I; try discriminate L; [contradiction|].
  cbn [combine In] in *. destruct I as [I|I].
  - injection I as -> ->. exists tg, vis, t. split; [now left|exact CF].
  - destruct (IH names ltac:(now injection L) n f I) as (tg' & vis' & t' & J & C'). exists tg', vis', t'. split; [now right|exact C'].
Qed.
(** Per field, looked up in the table of the struct. *)
Definition type_in (all : list (ident * gtype)) (n : ident) : gtype := match lookup n all with Some t => t | None => TOther end.
Lemma functions_compile E struct (names : list ident) (fs : list (tag * visibility * gtype)) fl : classify_all fs = Ok fl -> length names = length fs -> NoDup (filter (fun n => negb (same_text n blank)) names) ->
  Forall2 fits_name names fs ->
  func_ok E (combine names (map snd fs)) (marshal_func struct (combine names fl)) && func_ok E (combine names (map snd fs)) (unmarshal_func struct (combine names fl))
  = compiles E fs.
Proof.
  intros CA LN ND FN. pose proof (classified_all _ _ CA) as CF. set (all := combine names (map snd fs)). set (nf := combine names fl).
  assert (LF : length fs = length fl) by (clear - CF; induction CF; cbn [length]; congruence).
  assert (LK : forall n f, In (n, f) nf -> exists tg t, (same_text n blank = false -> lookup n all = Some t) /\ classify (type_text t) tg = Ok f /\
     (same_text n blank = false -> type_in all n = t)).
  { intros n f I. destruct (zipped names fs fl CF LN n f I) as (tg & vis & t & J & C).
    assert (LL : same_text n blank = false -> lookup n all = Some t) by (intros NB; exact (lookup_combine names fs ND LN n (tg, vis, t) J NB)).
    exists tg, t. split; [exact LL|]. split; [exact C|]. intros NB. unfold type_in. now rewrite (LL NB). }
  assert (W : forall g : field -> stmt, forall E B name T s ok1 ok2, (same_text name blank = false -> ok1 = ok2) -> accepted E B name T s ok1 false -> accepted E B name T s ok2 false).
  { intros _ E0 B name T s ok1 ok2 Q A F O L I. rewrite (A F O L I). destruct (same_text name blank); [reflexivity|]. now rewrite (Q eq_refl). }
  unfold func_ok. rewrite marshal_used, unmarshal_used.
  replace (returns (g_body (marshal_func struct nf))) with true by reflexivity. replace (returns (g_body (unmarshal_func struct nf))) with true by reflexivity.
  unfold marshal_func, unmarshal_func. cbn [g_body g_param g_recv]. unfold param_type. cbn [g_ptype].
  change (same_text (str "Encoder") (str "Encoder")) with true. change (same_text (str "Decoder") (str "Encoder")) with false. cbv iota.
  set (uew := existsb (fun '(_, f) => f_optional f || f_ptr f) nf). set (ulw := existsb (fun '(_, f) => f_slice f || f_array f) nf).
  set (uer := existsb (fun '(_, f) => f_optional f) nf). set (ulr := existsb (fun '(_, f) => f_slice f) nf).
  rewrite (check_body E uew ulw "e" YEncoder "int" KInt all _ (or_introl eq_refl) eq_refl).
  rewrite (check_body E uer ulr "d" YDecoder "uint" KUint all _ (or_intror eq_refl) eq_refl).
  rewrite (map_ext (fun '(name, f) => go_code name (type_tokens (f_type f)) (gen_write f)) (fun nm => go_code (fst nm) (type_tokens (f_type (snd nm))) (gen_write (snd nm)))) by now intros [n f].
  rewrite (map_ext (fun '(name, f) => go_code name (type_tokens (f_type f)) (gen_read f)) (fun nm => go_code (fst nm) (type_tokens (f_type (snd nm))) (gen_read (snd nm)))) by now intros [n f].
  pose proof (check_fields E (base uew ulw "e" YEncoder KInt all) (fun nm => gen_write (snd nm)) (fun nm => well_typed E (type_in all (fst nm)) (gen_write (snd nm))) nf) as CW.
  pose proof (check_fields E (base uer ulr "d" YDecoder KUint all) (fun nm => gen_read (snd nm)) (fun nm => well_typed E (type_in all (fst nm)) (gen_read (snd nm))) nf) as CR.
  match type of CW with ?X -> _ => assert (AW : X) end.
  { intros [n f] I. cbn [fst snd]. destruct (LK n f I) as (tg & t & LL & C & TI). apply (W gen_write E _ n _ _ (well_typed E t (gen_write f))); [intros NB; now rewrite (TI NB)|].
    apply (write_field E uew ulw all n _ t tg f LL C).
    - intros H. apply existsb_exists. exists (n, f). split; [exact I|exact H].
    - intros H. apply existsb_exists. exists (n, f). split; [exact I|now rewrite H]. }
  match type of CR with ?X -> _ => assert (AR : X) end.
  { intros [n f] I. cbn [fst snd]. destruct (LK n f I) as (tg & t & LL & C & TI). apply (W gen_read E _ n _ _ (well_typed E t (gen_read f))); [intros NB; now rewrite (TI NB)|].
    apply (read_field E uer ulr all n t tg f LL C).
    - intros H. apply existsb_exists. exists (n, f). split; [exact I|exact H].
    - intros H. apply existsb_exists. exists (n, f). split; [exact I|exact H]. }
  specialize (CW AW _ (like_refl _) (base_err _ _ _ _ _ _)). specialize (CR AR _ (like_refl _) (base_err _ _ _ _ _ _)).
  rewrite base_taken in CW by now left. rewrite base_taken in CR by now right. rewrite no_tmp in CW.
  unfold yes in CW, CR. rewrite CW, CR. clear CW CR AW AR.
  unfold compiles. rewrite CA. cbn [Nat.add Nat.leb]. rewrite !andb_true_r, Nat.add_0_r.
  assert (Q : forall p : field -> bool, existsb (fun '(_, f) => p f) nf = existsb p fl).
  { intros p. unfold nf. rewrite <- (proj2 (combine_keys names fl ltac:(congruence))) at 2. generalize (combine names fl). intros l.
    induction l as [|[n f] l IH]; [reflexivity|]. cbn [existsb map snd]. now rewrite IH. }
  assert (Q1 : ulw = declares_length fl) by exact (Q (fun f => f_slice f || f_array f)). assert (Q2 : ulr = existsb f_slice fl) by exact (Q f_slice).
  rewrite Q1, Q2.
  assert (Q3 : map (fun nm : ident * field => gen_read (snd nm)) nf = map gen_read fl).
  { unfold nf. rewrite <- map_map. f_equal. apply combine_keys. congruence. }
  rewrite Q3.
  assert (Q4 : forallb (fun nm => negb (same_text (fst nm) blank) && well_typed E (type_in all (fst nm)) (gen_write (snd nm))) nf
     && forallb (fun nm => negb (same_text (fst nm) blank) && well_typed E (type_in all (fst nm)) (gen_read (snd nm))) nf =
     forallb (fun '(tg, vis, t, f) => match vis with Blank => false | _ => true end && well_typed E t (gen_write f) && well_typed E t (gen_read f)) (combine fs fl)).
  { assert (LK' : forall n g, In (n, g) (combine names fs) -> same_text n blank = false -> type_in all n = snd g).
    { intros n g I NB. unfold type_in, all. now rewrite (lookup_combine names fs ND LN n g I NB). }
    clearbody all. clear - LK' FN LF. unfold nf. clear nf. revert fl LF. induction FN as [|n [[tg vis] t] names fs H _ IH]; intros [|f fl] LF; try discriminate LF; [reflexivity|].
    cbn [combine forallb fst snd]. rewrite <- (IH ltac:(intros m g I; apply LK'; now right) fl ltac:(now injection LF)). unfold fits_name in H. cbn [fst snd] in H.
    destruct (same_text n blank) eqn:NB; cbn [negb andb].
    - apply same_text_iff in NB. apply H in NB. subst vis. reflexivity.
    - rewrite (LK' n (tg, vis, t) (or_introl eq_refl) NB). cbn [snd].
      assert (NV : match vis with Blank => false | _ => true end = true).
      { destruct vis; try reflexivity. exfalso. rewrite (proj1 H eq_refl) in NB. discriminate NB. }
      rewrite NV. cbn [andb]. destruct (well_typed E t (gen_write f)), (well_typed E t (gen_read f)); cbn [andb]; try reflexivity; now rewrite andb_false_r. }
  rewrite <- Q4. change (fun s => match s with SReadTmp _ _ => true | _ => false end) with is_tmp. cbn [Nat.leb].
  repeat match goal with |- context [forallb ?p nf] => generalize (forallb p nf); intros ? end.
  generalize (implb (declares_length fl) (existsb f_slice fl)) as x. intros x. generalize (length (filter is_tmp (map gen_read fl)) <=? 1)%nat as z. intros z.
  repeat match goal with b : bool |- _ => destruct b end; reflexivity.
Qed.
