(** The generator's reading of type texts, and which of its outputs compile. *)
From Verif Require Import Base Prog AbiPrim Chain Values Leaf SpecLeaf SpecText GoStd GoStdProofs Numbers
  Reflect SpecReflect SpecCodegen Codegen.

Definition own_kind (t : gtype) : option kind :=
  match t with
  | TLeaf k => if go_kind k then Some k else None
  | TSlice (TLeaf KU8) => Some KGoBytes
  | _ => None
  end.
Lemma same_text_iff a b : same_text a b = true <-> a = b.
Proof. unfold same_text. destruct (byte_list_dec a b); split; congruence. Qed.
Lemma same_text_no a b : a <> b -> same_text a b = false.
Proof. unfold same_text. destruct (byte_list_dec a b); congruence. Qed.

Lemma digits_head n : exists c r, FormatUint (Z.of_nat n) = c :: r /\ digit c.
Proof.
  pose proof (FormatUint_digits (Z.of_nat n) ltac:(lia)) as D. pose proof (FormatUint_ne (Z.of_nat n) ltac:(lia)) as N.
  destruct (FormatUint (Z.of_nat n)) as [|c r]; [congruence|]. exists c, r. split; [reflexivity|].
  unfold digits in D. now inversion D.
Qed.
Lemma digit_not_close c : digit c -> c <> x5d.
Proof. intros D ->. unfold digit in D. change (zb x5d) with 93 in D. lia. Qed.

(** Texts of types of different shape differ. *)
Lemma text_uint8 t : type_text t = str "uint8" -> t = TLeaf KU8.
Proof.
  destruct t as [k|k| |t|t|n t|k v|fs|i u|i]; cbn [type_text]; intros H; try discriminate H.
  destruct k; try discriminate H. reflexivity.
Qed.
Lemma text_byte t : type_text t <> str "byte".
Proof.
  destruct t as [k|k| |t|t|n t|k v|fs|i u|i]; cbn [type_text]; intros H; try discriminate H.
  destruct k; discriminate H.
Qed.
Lemma bracket_text w : hd_error w = Some x5b -> method_of w =
  if same_text w (str "[]uint8") || same_text w (str "[]byte") then Some KGoBytes else None.
Proof.
  intros H. assert (P : forall s, hd_error s <> Some x5b -> same_text w s = false).
  { intros s N. apply same_text_no. intros ->. congruence. }
  unfold method_of. rewrite (P (str "string")), (P (str "uint64")), (P (str "uint32")), (P (str "uint16")), (P (str "uint8")), (P (str "int64")), (P (str "int32")), (P (str "int16")), (P (str "int8")), (P (str "bool")), (P (str "int")), (P (str "uint")), (P (str "float32")), (P (str "float64")) by discriminate. reflexivity.
Qed.
Lemma method_text t : method_of (type_text t) = own_kind t.
Proof.
  destruct t as [k|k| |t|t|n t|k v|fs|i u|i]; try reflexivity.
  - destruct k; reflexivity.
  - rewrite bracket_text by reflexivity. cbn [type_text own_kind].
    destruct (same_text (str "[]" ++ type_text t) (str "[]uint8")) eqn:E1.
    + apply same_text_iff in E1. cbn in E1. injection E1 as E1. apply text_uint8 in E1. subst t. reflexivity.
    + rewrite same_text_no.
      2:{ cbn. intros H. injection H as H. exact (text_byte _ H). }
      cbn [orb].
      assert (NU : t <> TLeaf KU8).
      { intros ->. discriminate E1. }
      destruct t as [k| | | | | | | | |]; try reflexivity. destruct k; try reflexivity. congruence.
  - rewrite bracket_text by reflexivity. cbn [type_text own_kind].
    destruct (digits_head n) as (c & r & -> & D). apply digit_not_close in D.
    rewrite !same_text_no; [reflexivity| |]; cbn [app]; intros H; injection H as H _; congruence.
Qed.

Lemma closing_digits ds rest : forall acc, digits ds -> closing (ds ++ x5d :: rest) acc = Some (rev acc ++ ds, rest).
Proof.
  induction ds as [|c ds IH]; intros acc D; cbn [app closing].
  - change (Byte.eqb x5d x5d) with true. cbv iota. now rewrite app_nil_r.
  - unfold digits in D. inversion D as [|? ? Dc Ds]; subst. pose proof (digit_not_close _ Dc) as N.
    destruct (Byte.eqb c x5d) eqn:Q; [apply Byte.byte_dec_bl in Q; congruence|].
    rewrite IH by exact Ds. cbn [rev]. now rewrite <- app_assoc.
Qed.

Definition parsed_len (n : nat) : Z := match ParseInt (FormatUint (Z.of_nat n)) 64 with Ok v => v | _ => 0 end.
(** What classify finds behind an optional star. *)
Definition body_of (t : gtype) : bool * bool * Z * option kind :=
  match t with
  | TSlice u => (true, false, 0, own_kind u)
  | TLeaf KGoBytes => (true, false, 0, Some KU8)
  | TArray n u => (false, true, parsed_len n, own_kind u)
  | t => (false, false, 0, own_kind t)
  end.
Definition shape_of (t : gtype) : bool * (bool * bool * Z * option kind) :=
  match t with TPtr u => (true, body_of u) | t => (false, body_of t) end.
Definition field_of (t : gtype) (opt : bool) (text : list byte) : field :=
  let '(p, (s, a, n, m)) := shape_of t in
  {| f_type := text; f_ptr := p; f_optional := opt; f_slice := s; f_array := a; f_len := n; f_method := m |}.

Definition classify_body (text : list byte) : bool * bool * Z * list byte :=
  if has_prefix (str "[]") text then (true, false, 0, skipn 2 text)
  else if has_prefix (str "[") text then
    match closing (skipn 1 text) [] with
    | Some (digits, rest) => (false, true, match ParseInt digits 64 with Ok v => v | _ => 0 end, rest)
    | None => (false, true, 0, text)
    end
  else (false, false, 0, text).
Lemma has_prefix_no p s : firstn (length p) s <> p -> has_prefix p s = false.
Proof. unfold has_prefix. destruct (byte_list_dec (firstn (length p) s) p); congruence. Qed.
Lemma body_text t : exists text, classify_body (type_text t)
    = (fst (fst (fst (body_of t))), snd (fst (fst (body_of t))), snd (fst (body_of t)), text)
  /\ method_of text = snd (body_of t).
Proof.
  unfold classify_body. destruct t as [k|k| |t|t|n t|k v|fs|i u|i].
  - destruct k; cbn [body_of fst snd type_text kind_text]; eexists; (split; [reflexivity|]); reflexivity.
  - eexists; (split; [reflexivity|]); reflexivity.
  - eexists; (split; [reflexivity|]); reflexivity.
  - cbn [type_text body_of fst snd]. exists (x2a :: type_text t). split; [|exact (method_text (TPtr t))].
    rewrite !has_prefix_no; [reflexivity| |]; cbn; discriminate.
  - cbn [type_text body_of fst snd]. exists (type_text t). split; [|apply method_text].
    assert (P : has_prefix (str "[]") (str "[]" ++ type_text t) = true) by reflexivity. rewrite P. reflexivity.
  - cbn [type_text body_of fst snd]. exists (type_text t). split; [|apply method_text].
    destruct (digits_head n) as (c & r & F & D). apply digit_not_close in D.
    rewrite has_prefix_no.
    2:{ rewrite F. cbn. intros H. injection H as H. congruence. }
    assert (P : has_prefix (str "[") (x5b :: FormatUint (Z.of_nat n) ++ x5d :: type_text t) = true) by reflexivity.
    rewrite P. cbn [skipn]. rewrite closing_digits by (apply FormatUint_digits; lia). reflexivity.
  - cbn [type_text body_of fst snd]. exists (type_text (TMap k v)). split; [|exact (method_text (TMap k v))].
    rewrite !has_prefix_no; [reflexivity| |]; cbn; discriminate.
  - eexists; (split; [reflexivity|]); reflexivity.
  - eexists; (split; [reflexivity|]); reflexivity.
  - eexists; (split; [reflexivity|]); reflexivity.
Qed.

Definition pointer (t : gtype) : bool := match t with TPtr _ => true | _ => false end.
Definition is_optional (tg : tag) : bool := match tg with Optional => true | _ => false end.
Lemma not_star t : pointer t = false -> match type_text t with c :: _ => Byte.eqb c x2a = false | [] => True end.
Proof. destruct t as [k|k| |t|t|n t|k v|fs|i u|i]; intros H; try discriminate H; try reflexivity. destruct k; reflexivity. Qed.
(** classify in closed form. *)
Lemma classify_text t tg :
  if is_optional tg && negb (pointer t) then exists m, classify (type_text t) tg = Panic m
  else exists text, classify (type_text t) tg = Ok (field_of t (is_optional tg) text).
Proof.
  assert (G : forall ptr text t', method_of text = method_of text ->
    (forall x, type_text t = x -> match x with c :: r => if Byte.eqb c x2a then (true, r) else (false, x) | [] => (false, x) end = (ptr, type_text t')) ->
    ptr = pointer t -> shape_of t = (ptr, body_of t') ->
    if is_optional tg && negb (pointer t) then exists m, classify (type_text t) tg = Panic m
    else exists text, classify (type_text t) tg = Ok (field_of t (is_optional tg) text)).
  { intros ptr text t' _ H HP HS. destruct (body_text t') as (tx & B & M). unfold classify.
    rewrite (H _ eq_refl). change (
      if is_optional tg && negb (pointer t)
      then exists m, (let '(sl, ar, n, text) := classify_body (type_text t') in
        match tg with
        | Optional => if ptr : bool
          then Ok {| f_type := text; f_ptr := ptr; f_optional := true; f_slice := sl; f_array := ar; f_len := n; f_method := method_of text |}
          else Panic "cant generate code for non-pointer optionals"
        | _ => Ok {| f_type := text; f_ptr := ptr; f_optional := false; f_slice := sl; f_array := ar; f_len := n; f_method := method_of text |}
        end) = Panic m
      else exists text, (let '(sl, ar, n, text) := classify_body (type_text t') in
        match tg with
        | Optional => if ptr : bool
          then Ok {| f_type := text; f_ptr := ptr; f_optional := true; f_slice := sl; f_array := ar; f_len := n; f_method := method_of text |}
          else Panic "cant generate code for non-pointer optionals"
        | _ => Ok {| f_type := text; f_ptr := ptr; f_optional := false; f_slice := sl; f_array := ar; f_len := n; f_method := method_of text |}
        end) = Ok (field_of t (is_optional tg) text)).
    rewrite B. cbv iota beta. unfold field_of. rewrite HS, M, HP. destruct (body_of t') as [[[s a] n] m]. cbn [fst snd].
    destruct tg, (pointer t); cbn [is_optional negb andb]; eexists; reflexivity. }
  destruct (pointer t) eqn:P.
  - destruct t; try discriminate P. apply (G true [] t); try reflexivity. intros x <-. reflexivity.
  - apply (G false [] t); try reflexivity; [|destruct t; try reflexivity; discriminate P].
    intros x <-. pose proof (not_star t P) as N. destruct (type_text t) as [|c r]; [reflexivity|]. now rewrite N.
Qed.

(** ** GenUnmarshalFn panics exactly on an optional that is not a pointer *)
Lemma classify_all_ok fs : (forall vis t, In (Optional, vis, t) fs -> pointer t = true) ->
  exists l, classify_all fs = Ok l /\ Forall2 (fun '(tg, _, t) f => exists text, f = field_of t (is_optional tg) text) fs l.
Proof.
  induction fs as [|[[tg vis] t] fs IH]; intros H; cbn [classify_all].
  - exists []. split; [reflexivity|constructor].
  - destruct IH as (l & EL & FL); [intros v u I; apply (H v u); now right|].
    pose proof (classify_text t tg) as C.
    assert (N : is_optional tg && negb (pointer t) = false).
    { destruct tg; try reflexivity. cbn [is_optional andb]. rewrite (H vis t) by now left. reflexivity. }
    rewrite N in C. destruct C as (text & ->). cbn [rbind]. rewrite EL. cbn [rbind]. eexists. split; [reflexivity|].
    constructor; [|exact FL]. now exists text.
Qed.
Lemma classify_all_panic fs vis t : In (Optional, vis, t) fs -> pointer t = false -> exists m, classify_all fs = Panic m.
Proof.
  intros I P. induction fs as [|[[tg vis'] t'] fs IH]; [contradiction|]. cbn [classify_all].
  pose proof (classify_text t' tg) as C. destruct (is_optional tg && negb (pointer t')) eqn:N.
  - destruct C as (m & ->). now exists m.
  - destruct C as (text & ->). cbn [rbind]. destruct I as [I|I].
    + injection I as -> -> ->. rewrite P in N. discriminate N.
    + destruct (IH I) as (m & ->). now exists m.
Qed.

(** ** Typing *)
Lemma has_methods_iff E t : has_methods E t = true <-> with_methods E t.
Proof.
  unfold has_methods, with_methods. destruct (head E t); try (split; [discriminate|contradiction]).
  - destruct (go_kind k); split; cbn; congruence.
  - split; auto.
  - split; auto.
Qed.
Lemma callable_iff E t : callable E t = true <-> method_element E t.
Proof.
  unfold method_element. destruct t; cbn [callable]; rewrite has_methods_iff;
    try (split; [intros H; now left|intros [H|(u & H & _)]; [exact H|discriminate H]]).
  split.
  - intros H. right. now exists t.
  - intros [H|(u & H & W)]; [|congruence]. unfold with_methods in H. cbn [head] in H. contradiction.
Qed.
Lemma kind_dec_refl {A} k (a b : A) : (if kind_dec k k then a else b) = a.
Proof. destruct (kind_dec k k); congruence. Qed.
Lemma is_kind_own E k t : own_kind t = Some k -> k <> KGoBytes -> is_kind E k t = true.
Proof.
  unfold is_kind. destruct t; try discriminate; cbn [own_kind head].
  - destruct (go_kind k0) eqn:G; [|discriminate]. intros H _. injection H as ->. apply kind_dec_refl.
  - destruct t; try discriminate. destruct k0; try discriminate. intros H N. congruence.
Qed.
Lemma own_scalar t : scalar t <-> exists k, own_kind t = Some k /\ k <> KGoBytes.
Proof.
  unfold scalar. split.
  - intros (k & -> & G & N). exists k. cbn [own_kind]. now rewrite G.
  - intros (k & H & N). destruct t; try discriminate; cbn [own_kind] in H.
    + destruct (go_kind k0) eqn:G; [|discriminate]. injection H as ->. now exists k.
    + destruct t; try discriminate. destruct k0; try discriminate. congruence.
Qed.
Lemma scalar_no_methods E t : scalar t -> with_methods E t -> False.
Proof. intros (k & -> & G & N). unfold with_methods. cbn [head]. congruence. Qed.
Lemma own_no_methods E t k : own_kind t = Some k -> with_methods E t -> False.
Proof.
  unfold with_methods. destruct t; try discriminate; cbn [own_kind head].
  - destruct (go_kind k0); [congruence|discriminate].
  - contradiction.
Qed.
Lemma own_no_element E t k : own_kind t = Some k -> method_element E t -> False.
Proof.
  intros O [W|(u & -> & W)]; [exact (own_no_methods _ _ _ O W)|]. discriminate O.
Qed.


Definition typed_field (E : types) (t : gtype) (f : field) : bool := well_typed E t (gen_write f) && well_typed E t (gen_read f).
Definition el_write (E : types) (t : gtype) : bool :=
  match own_kind t with Some k => is_kind E k t | None => callable E t end.
Definition el_read (E : types) (t : gtype) : bool :=
  match own_kind t with Some KGoBytes => false | Some k => is_kind E k t | None => callable E t end.
Lemma el_iff E t : el_write E t && el_read E t = true <-> element E t.
Proof.
  unfold el_write, el_read, element. destruct (own_kind t) as [k|] eqn:O.
  - assert (NM : ~ method_element E t) by (intros M; exact (own_no_element _ _ _ O M)).
    split.
    + intros H. left. apply own_scalar. exists k. split; [exact O|]. intros ->. rewrite andb_false_r in H. discriminate H.
    + intros [S|M]; [|contradiction]. apply own_scalar in S as (k' & O' & N). rewrite O in O'. injection O' as <-.
      rewrite (is_kind_own E k t O N). destruct k; try reflexivity. congruence.
  - rewrite Bool.andb_diag, callable_iff. split; [now right|]. intros [S|M]; [|exact M].
    apply own_scalar in S as (k & O' & _). congruence.
Qed.

Lemma body_no_ptr E t text : pointer t = false ->
  typed_field E t (field_of t false text) = true <-> field_form E NoTag t.
Proof.
  intros P. unfold field_of.
  assert (SH : shape_of t = (false, body_of t)) by (destruct t; try reflexivity; discriminate P).
  rewrite SH. unfold typed_field, gen_write, gen_read.
  assert (PLAIN : slice_field t \/ (exists n u, t = TArray n u) \/ body_of t = (false, false, 0, own_kind t)).
  { destruct t as [k|k| |t|t|n t|k v|fs|i u|i]; try (right; right; reflexivity).
    - destruct k; try (right; right; reflexivity). left. now left.
    - left. right. now exists t.
    - right. left. now exists n, t. }
  destruct PLAIN as [[-> |(u & ->)]|[(n & u & ->)|B]].
  - cbn. split; [intros _|reflexivity]. now apply ff_bytes.
  - cbn [body_of f_method f_slice f_array f_ptr f_optional f_len orb andb].
    assert (R : forall m, well_typed E (TSlice u) (SWriteSlice {| star := false; index := false |}
         match m with Some k => SWrite k {| star := false; index := true |} | None => SMarshal {| star := false; index := true |} end) =
         match m with Some k => is_kind E k u | None => callable E u end) by (intros [k|]; reflexivity).
    rewrite R.
    assert (R' : forall m, well_typed E (TSlice u) (SReadSlice
         match m with Some k => SRead k {| star := false; index := true |} | None => SUnmarshal {| star := false; index := true |} end) =
         match m with Some KGoBytes => false | Some k => is_kind E k u | None => callable E u end) by (intros [[]|]; reflexivity).
    rewrite R'. change (el_write E u && el_read E u = true <-> field_form E NoTag (TSlice u)). rewrite el_iff.
    split; [intros H; now apply ff_slice|]. intros H. inversion H as [tg t S|tg|tg t N W|tg t N EL|tg n t N EL| | |]; subst.
    + apply own_scalar in H0 as (k & O & N). cbn [own_kind] in O. destruct u; try discriminate O. destruct k0; try discriminate O. congruence.
    + unfold with_methods in W. cbn [head] in W. contradiction.
    + exact EL.
  - cbn [body_of f_method f_slice f_array f_ptr f_optional f_len orb andb].
    assert (R : forall m, well_typed E (TArray n u) (SWriteArray (parsed_len n)
         match m with Some k => SWrite k {| star := false; index := true |} | None => SMarshal {| star := false; index := true |} end) =
         match m with Some k => is_kind E k u | None => callable E u end) by (intros [k|]; reflexivity).
    rewrite R.
    assert (R' : forall m, well_typed E (TArray n u) (SReadArray (parsed_len n)
         match m with Some k => SRead k {| star := false; index := true |} | None => SUnmarshal {| star := false; index := true |} end) =
         match m with Some KGoBytes => false | Some k => is_kind E k u | None => callable E u end) by (intros [[]|]; reflexivity).
    rewrite R'. change (el_write E u && el_read E u = true <-> field_form E NoTag (TArray n u)). rewrite el_iff.
    split; [intros H; now apply ff_array|]. intros H. inversion H as [tg t S|tg|tg t N W|tg t N EL|tg m t N EL| | |]; subst.
    + apply own_scalar in H0 as (k & O & N). discriminate O.
    + unfold with_methods in W. cbn [head] in W. contradiction.
    + exact EL.
  - rewrite B. cbn [f_method f_slice f_array f_ptr f_optional f_len orb andb].
    assert (R : forall m, well_typed E t
         match m with Some k => SWrite k {| star := false; index := false |} | None => SMarshal {| star := false; index := false |} end =
         match m with Some k => is_kind E k t | None => callable E t end) by (intros [k|]; reflexivity).
    rewrite R.
    assert (R' : forall m, well_typed E t
         match m with Some k => SRead k {| star := false; index := false |} | None => SUnmarshal {| star := false; index := false |} end =
         match m with Some KGoBytes => false | Some k => is_kind E k t | None => callable E t end) by (intros [[]|]; reflexivity).
    rewrite R'. change (el_write E t && el_read E t = true <-> field_form E NoTag t). rewrite el_iff.
    split.
    + intros [S|[W|(u & -> & W)]]; [now apply ff_scalar|now apply ff_methods|discriminate P].
    + intros H. inversion H; subst; try discriminate P; try discriminate B.
      * now left.
      * right. now left.
Qed.
Lemma body_ptr E u opt text : typed_field E (TPtr u) (field_of (TPtr u) opt text) = true
  <-> field_form E (if opt then Optional else NoTag) (TPtr u).
Proof.
  unfold field_of. cbn [shape_of]. unfold typed_field, gen_write, gen_read.
  assert (PLAIN : slice_field u \/ (exists n w, u = TArray n w) \/ body_of u = (false, false, 0, own_kind u)).
  { destruct u as [k|k| |t|t|n t|k v|fs|i u0|i]; try (right; right; reflexivity).
    - destruct k; try (right; right; reflexivity). left. now left.
    - left. right. now exists t.
    - right. left. now exists n, t. }
  assert (NP : with_methods E (TPtr u) -> False) by (unfold with_methods; cbn [head]; auto).
  destruct PLAIN as [S|[(n & w & ->)|B]].
  - (* a pointer to a slice *)
    assert (F : well_typed E (TPtr u) (gen_read (field_of (TPtr u) opt text)) = false).
    { destruct S as [-> |(w & ->)]; destruct opt; reflexivity. }
    unfold field_of in F. cbn [shape_of] in F. unfold gen_read in F. rewrite F, andb_false_r.
    split; [discriminate|]. intros H. exfalso.
    inversion H as [tg t N SC|tg|tg t N W| | |tg t SC|tg t W|]; subst.
    + apply own_scalar in SC as (k & O & _). discriminate O.
    + contradiction.
    + destruct S as [-> |(w & ->)]; [apply own_scalar in SC as (k & O & N); cbn in O; congruence|].
      destruct SC as (k & C & _). discriminate C.
    + destruct S as [-> |(w & ->)]; unfold with_methods in W; cbn [head] in W; [discriminate W|contradiction].
    + destruct S as [S|(w & S)]; discriminate S.
  - (* a pointer to an array *)
    cbn [body_of f_method f_slice f_array f_ptr f_optional f_len orb andb].
    assert (R : forall m, well_typed E (TPtr (TArray n w))
        (if opt || true then SWriteOptional opt (SWriteArray (parsed_len n)
         match m with Some k => SWrite k {| star := true; index := true |} | None => SMarshal {| star := true; index := true |} end)
         else (SWriteArray (parsed_len n)
         match m with Some k => SWrite k {| star := true; index := true |} | None => SMarshal {| star := true; index := true |} end)) =
         match m with Some k => is_kind E k w | None => callable E w end) by (intros [k|]; destruct opt; reflexivity).
    rewrite R.
    assert (R' : forall m, well_typed E (TPtr (TArray n w))
        (if opt then SReadOptional (SReadArray (parsed_len n)
         match m with Some k => SReadTmp k {| star := false; index := true |} | None => SUnmarshal {| star := true; index := true |} end)
         else (SReadArray (parsed_len n)
         match m with Some k => SReadTmp k {| star := false; index := true |} | None => SUnmarshal {| star := true; index := true |} end)) =
         match m with Some KGoBytes => false | Some k => match head E w with TPtr w => is_kind E k w | _ => false end | None => callable E w end)
      by (intros [[]|]; destruct opt; reflexivity).
    rewrite R'.
    assert (M : match own_kind w with Some k => is_kind E k w | None => callable E w end &&
                match own_kind w with Some KGoBytes => false | Some k => match head E w with TPtr w => is_kind E k w | _ => false end
                | None => callable E w end = true <-> method_element E w).
    { destruct (own_kind w) as [k|] eqn:O.
      - split; [|intros ME; destruct (own_no_element _ _ _ O ME)].
        intros H. exfalso. destruct w; try discriminate O; cbn [own_kind head] in O, H.
        + rewrite andb_false_r in H || (destruct k; rewrite andb_false_r in H); discriminate H.
        + destruct k; rewrite andb_false_r in H; discriminate H.
      - rewrite Bool.andb_diag. apply callable_iff. }
    rewrite M. split; [intros H; now apply ff_ptr_array|]. intros H.
    inversion H as [tg t N SC|tg|tg t N W| | |tg t SC|tg t W|]; subst.
    + apply own_scalar in SC as (k & O & _). discriminate O.
    + contradiction.
    + apply own_scalar in SC as (k & O & _). discriminate O.
    + unfold with_methods in W. cbn [head] in W. contradiction.
    + assumption.
  - rewrite B. cbn [f_method f_slice f_array f_ptr f_optional f_len orb andb].
    assert (R : forall m, well_typed E (TPtr u)
        (if opt || true then SWriteOptional opt
         match m with Some k => SWrite k {| star := true; index := false |} | None => SMarshal {| star := false; index := false |} end
         else 
         match m with Some k => SWrite k {| star := true; index := false |} | None => SMarshal {| star := false; index := false |} end) =
         match m with Some k => is_kind E k u | None => has_methods E u end) by (intros [k|]; destruct opt; reflexivity).
    rewrite R.
    assert (R' : forall m, well_typed E (TPtr u)
        (if opt then SReadOptional
         match m with Some k => SReadTmp k {| star := false; index := false |} | None => SUnmarshal {| star := false; index := false |} end
         else match m with Some k => SReadTmp k {| star := false; index := false |} | None => SUnmarshal {| star := false; index := false |} end) =
         match m with Some KGoBytes => false | Some k => is_kind E k u | None => has_methods E u end)
      by (intros [[]|]; destruct opt; reflexivity).
    rewrite R'.
    assert (M : match own_kind u with Some k => is_kind E k u | None => has_methods E u end &&
                match own_kind u with Some KGoBytes => false | Some k => is_kind E k u | None => has_methods E u end = true
                <-> scalar u \/ with_methods E u).
    { destruct (own_kind u) as [k|] eqn:O.
      - split.
        + intros H. left. apply own_scalar. exists k. split; [exact O|]. intros ->. rewrite andb_false_r in H. discriminate H.
        + intros [S|W]; [|destruct (own_no_methods _ _ _ O W)]. apply own_scalar in S as (k' & O' & N). rewrite O in O'. injection O' as <-.
          rewrite (is_kind_own E k u O N). destruct k; try reflexivity. congruence.
      - rewrite Bool.andb_diag, has_methods_iff. split; [now right|]. intros [S|W]; [|exact W].
        apply own_scalar in S as (k & O' & _). congruence. }
    rewrite M. split.
    + intros [S|W]; [now apply ff_ptr|now apply ff_ptr_methods].
    + intros H. inversion H as [tg t N SC|tg|tg t N W| | |tg t SC|tg t W|tg n t ME]; subst.
      * apply own_scalar in SC as (k & O & _). discriminate O.
      * contradiction.
      * now left.
      * now right.
      * discriminate B.
Qed.
Lemma form_tag E tg t : tg <> Optional -> field_form E tg t <-> field_form E NoTag t.
Proof.
  intros N. split; intros H; inversion H; subst;
    [apply ff_scalar|apply ff_bytes|apply ff_methods|apply ff_slice|apply ff_array|apply ff_ptr|apply ff_ptr_methods|apply ff_ptr_array
    |apply ff_scalar|apply ff_bytes|apply ff_methods|apply ff_slice|apply ff_array|apply ff_ptr|apply ff_ptr_methods|apply ff_ptr_array];
    congruence || assumption.
Qed.
Lemma form_optional E t : field_form E Optional t -> pointer t = true.
Proof. intros H. inversion H; subst; congruence || reflexivity. Qed.
Lemma field_typed E tg t text : is_optional tg && negb (pointer t) = false ->
  typed_field E t (field_of t (is_optional tg) text) = true <-> field_form E tg t.
Proof.
  intros N. destruct (pointer t) eqn:P.
  - destruct t as [| | |u| | | | | |]; try discriminate P. rewrite body_ptr. destruct tg; cbn [is_optional]; try reflexivity;
      symmetry; apply form_tag; congruence.
  - assert (NO : is_optional tg = false) by (destruct tg; try reflexivity; discriminate N).
    rewrite NO, (body_no_ptr E t text P). destruct tg; try discriminate NO; try reflexivity; symmetry; apply form_tag; congruence.
Qed.

(** ** Which structs compile *)
Definition described : tag * visibility * gtype -> field -> Prop :=
  fun '(tg, _, t) f => is_optional tg && negb (pointer t) = false /\ exists text, f = field_of t (is_optional tg) text.
Lemma classify_all_described fs l : classify_all fs = Ok l -> Forall2 described fs l.
Proof.
  revert l. induction fs as [|[[tg vis] t] fs IH]; intros l H; cbn [classify_all] in H.
  - injection H as <-. constructor.
  - pose proof (classify_text t tg) as C. destruct (is_optional tg && negb (pointer t)) eqn:N.
    + destruct C as (m & C). rewrite C in H. discriminate H.
    + destruct C as (text & C). rewrite C in H. cbn [rbind] in H.
      destruct (classify_all fs) as [l'|e|m]; try discriminate H. injection H as <-. constructor; [|now apply IH].
      split; [exact N|]. now exists text.
Qed.
Lemma field_slice t opt text : f_slice (field_of t opt text) = true <->
  slice_field t \/ exists u, t = TPtr u /\ slice_field u.
Proof.
  unfold field_of, slice_field. split.
  - destruct t as [k|k| |u|u|n u|k v|fs|i0 u0|i]; cbn; try discriminate.
    + destruct k; try discriminate. now left; left.
    + destruct u as [k|k| |w|w|n w|k v|fs|i0 u0|i]; cbn; try discriminate.
      * destruct k; try discriminate. right. exists (TLeaf KGoBytes). auto.
      * right. exists (TSlice w). split; [reflexivity|]. right. now exists w.
    + left. right. now exists u.
  - intros [[-> |(w & ->)]|(u & -> & [-> |(w & ->)])]; reflexivity.
Qed.
Lemma field_array t opt text : f_array (field_of t opt text) = true <-> array_field t.
Proof.
  unfold field_of, array_field. split.
  - destruct t as [k|k| |u|u|n u|k v|fs|i0 u0|i]; cbn; try discriminate.
    + destruct k; discriminate.
    + destruct u as [k|k| |w|w|n w|k v|fs|i0 u0|i]; cbn; try discriminate; [destruct k; discriminate|].
      intros _. exists n, w. now right.
    + intros _. exists n, u. now left.
  - intros (n & u & [-> | ->]); reflexivity.
Qed.
Definition is_tmp (s : stmt) : bool := match s with SReadTmp _ _ => true | _ => false end.
Lemma field_tmp E tg t text : field_form E tg t ->
  is_tmp (gen_read (field_of t (is_optional tg) text)) = true <-> required_scalar tg t.
Proof.
  intros F. unfold required_scalar. split.
  - intros H. assert (NO : tg <> Optional).
    { intros ->. unfold field_of in H. destruct (shape_of t) as [p [[[sl a] n] m]]. discriminate H. }
    split; [exact NO|]. inversion F as [tg' t' N S|tg'|tg' t' N W|tg' t' N EL|tg' n t' N EL|tg' t' S|tg' t' W|tg' n t' ME]; subst.
    + destruct S as (k & -> & G & NB). destruct tg, k; try discriminate G; try discriminate H; congruence.
    + destruct tg; discriminate H.
    + exfalso. destruct t as [k|k| |u|u|n u|k v|fs|i0 u0|i]; try (destruct tg; discriminate H).
      * unfold with_methods in W. cbn [head] in W. destruct k; try discriminate W; destruct tg; discriminate H.
      * unfold with_methods in W. contradiction.
    + destruct tg; discriminate H.
    + destruct tg; discriminate H.
    + now exists t'.
    + exfalso. destruct t' as [k|k| |u|u|n u|k v|fs|i0 u0|i]; try (destruct tg; discriminate H).
      unfold with_methods in W. cbn [head] in W. destruct k; try discriminate W; destruct tg; discriminate H.
    + destruct tg; discriminate H.
  - intros (NO & u & -> & k & -> & G & NB). destruct tg; try congruence; destruct k; try discriminate G; try congruence; reflexivity.
Qed.
Lemma slice_form E tg t : field_form E tg t -> (slice_field t \/ exists u, t = TPtr u /\ slice_field u) -> slice_field t.
Proof.
  intros F [H|(u & -> & H)]; [exact H|]. exfalso.
  inversion F as [tg' t' N S|tg'|tg' t' N W|tg' t' N EL|tg' n t' N EL|tg' t' S|tg' t' W|tg' n t' ME]; subst.
  - destruct S as (k & S & _). discriminate S.
  - exact W.
  - destruct S as (k & -> & G & NB). destruct H as [H|(w & H)]; congruence.
  - unfold with_methods in W. destruct H as [-> |(w & ->)]; cbn [head] in W; [discriminate W|exact W].
  - destruct H as [H|(w & H)]; discriminate H.
Qed.

Definition required (fd : tag * visibility * gtype) : Prop := required_scalar (fst (fst fd)) (snd fd).
Lemma at_most_one {A} (P : A -> Prop) (f : A -> bool) (l : list A) : (forall x, In x l -> f x = true <-> P x) ->
  (length (filter f l) <= 1)%nat <-> (forall a b c x y, l = a ++ x :: b ++ y :: c -> P x -> ~ P y).
Proof.
  intros H. split.
  - intros L a b c x y -> Px Py.
    assert (Fx : f x = true) by (apply H; [rewrite !in_app_iff; cbn [In]; auto|exact Px]).
    assert (Fy : f y = true) by (apply H; [rewrite !in_app_iff; cbn [In]; rewrite !in_app_iff; cbn [In]; auto|exact Py]).
    rewrite filter_app, app_length in L. cbn [filter] in L. rewrite Fx in L. cbn [length] in L.
    rewrite filter_app, app_length in L. cbn [filter] in L. rewrite Fy in L. cbn [length] in L. lia.
  - intros N. induction l as [|x l IH]; [cbn; lia|]. cbn [filter].
    assert (IH' : (length (filter f l) <= 1)%nat).
    { apply IH; [intros y I; apply H; now right|]. intros a b c y z -> . apply (N (x :: a) b c). reflexivity. }
    destruct (f x) eqn:Fx; [|exact IH']. destruct (filter f l) as [|y r] eqn:Fl; [cbn; lia|]. exfalso.
    assert (I : In y l) by (assert (In y (filter f l)) by (rewrite Fl; now left); now apply filter_In in H0).
    assert (Fy : f y = true) by (assert (In y (filter f l)) by (rewrite Fl; now left); now apply filter_In in H0).
    apply in_split in I as (b & c & ->). apply (N [] b c x y eq_refl); [apply H|apply H]; cbn [In app]; rewrite ?in_app_iff; cbn [In]; auto.
Qed.
Lemma filter_tmp E fs l : Forall2 described fs l -> Forall (fun '(tg, _, t) => field_form E tg t) fs ->
  forall req : tag * visibility * gtype -> bool, (forall x, In x fs -> req x = true <-> required x) ->
  length (filter is_tmp (map gen_read l)) = length (filter req fs).
Proof.
  induction 1 as [|[[tg vis] t] f fs l D _ IH]; intros F req R; [reflexivity|].
  inversion F as [|? ? F1 F2]; subst. cbv beta iota in F1. cbn [map filter].
  specialize (IH F2 req (fun x I => R x (or_intror I))).
  destruct D as (N & text & ->).
  assert (Q : is_tmp (gen_read (field_of t (is_optional tg) text)) = req (tg, vis, t)).
  { apply eq_true_iff_eq. rewrite (field_tmp E _ _ _ F1), (R _ (or_introl eq_refl)). reflexivity. }
  rewrite Q. destruct (req (tg, vis, t)); cbn [length]; congruence.
Qed.
Lemma existsb_described (P : tag * visibility * gtype -> Prop) (f : field -> bool) fs l : Forall2 described fs l ->
  (forall tg vis t text, In (tg, vis, t) fs -> f (field_of t (is_optional tg) text) = true <-> P (tg, vis, t)) ->
  existsb f l = true <-> exists x, In x fs /\ P x.
Proof.
  induction 1 as [|[[tg vis] t] fd fs l D _ IH]; intros H; cbn [existsb].
  - split; [discriminate|]. intros (x & [] & _).
  - destruct D as (N & text & ->). rewrite orb_true_iff, IH, H; [|now left|intros; apply H; now right]. split.
    + intros [A|(x & I & A)]; [exists (tg, vis, t); split; [now left|exact A]|exists x; split; [now right|exact A]].
    + intros (x & [<- |I] & A); [now left|right; now exists x].
Qed.
Definition required_dec (fd : tag * visibility * gtype) : bool :=
  negb (is_optional (fst (fst fd))) &&
  match snd fd with TPtr (TLeaf KGoBytes) => false | TPtr (TLeaf k) => go_kind k | _ => false end.
Lemma required_dec_iff fd : required_dec fd = true <-> required fd.
Proof.
  destruct fd as [[tg vis] t]. unfold required_dec, required, required_scalar, scalar. cbn [fst snd].
  rewrite andb_true_iff. split.
  - intros [A B]. split; [intros ->; discriminate A|]. destruct t as [| | |u| | | | | |]; try discriminate B.
    destruct u as [k| | | | | | | | |]; try discriminate B. exists (TLeaf k). split; [reflexivity|]. exists k.
    split; [reflexivity|]. split; [destruct k; exact B || reflexivity|]. intros ->. discriminate B.
  - intros (A & u & -> & k & -> & G & NB). split; [destruct tg; try reflexivity; congruence|]. destruct k; exact G || congruence.
Qed.
Lemma forallb_described E fs l : Forall2 described fs l ->
  forallb (fun '(tg, vis, t, f) =>
                 match vis with Blank => false | _ => true end && well_typed E t (gen_write f) && well_typed E t (gen_read f))
              (combine fs l) = true
  <-> Forall (fun '(tg, vis, t) => vis <> Blank /\ field_form E tg t) fs.
Proof.
  induction 1 as [|[[tg vis] t] f fs l D _ IH]; cbn [combine forallb]; [split; [constructor|reflexivity]|].
  destruct D as (N & text & ->). rewrite andb_true_iff, IH, <- andb_assoc.
  change (well_typed E t (gen_write (field_of t (is_optional tg) text)) && well_typed E t (gen_read (field_of t (is_optional tg) text)))
    with (typed_field E t (field_of t (is_optional tg) text)).
  rewrite andb_true_iff, (field_typed E _ _ text N). split.
  - intros [[A B] C]. constructor; [split; [destruct vis; congruence|exact B]|exact C].
  - intros H. inversion H as [|? ? AB C]; subst. cbv beta iota in AB. destruct AB as [A B]. repeat split; try assumption. destruct vis; congruence.
Qed.

Lemma compiles_iff E fs : compiles E fs = true <-> compilable E fs.
Proof.
  unfold compiles, compilable. destruct (classify_all fs) as [l|e|m] eqn:C.
  - pose proof (classify_all_described _ _ C) as D.
    rewrite !andb_true_iff, (forallb_described E fs l D), Nat.leb_le. change (fun s => match s with SReadTmp _ _ => true | _ => false end) with is_tmp.
    assert (G : forall F : Forall (fun '(tg, vis, t) => vis <> Blank /\ field_form E tg t) fs,
      (implb (declares_length l) (existsb f_slice l) = true <->
        ((exists tg vis t, In (tg, vis, t) fs /\ array_field t) -> exists tg vis t, In (tg, vis, t) fs /\ slice_field t))
      /\ ((length (filter is_tmp (map gen_read l)) <= 1)%nat <->
        (forall f g h tg vis t tg' vis' t', fs = f ++ (tg, vis, t) :: g ++ (tg', vis', t') :: h ->
           required_scalar tg t -> ~ required_scalar tg' t'))).
    { intros F. assert (F' : Forall (fun '(tg, vis, t) => field_form E tg t) fs).
      { eapply Forall_impl; [|exact F]. intros [[tg vis] t]. tauto. }
      assert (FI : forall tg vis t, In (tg, vis, t) fs -> field_form E tg t).
      { rewrite Forall_forall in F'. intros tg vis t I. exact (F' _ I). }
      split.
      - assert (A : declares_length l = true <-> exists x, In x fs /\ (slice_field (snd x) \/ array_field (snd x))).
        { unfold declares_length. apply (existsb_described _ _ fs l D). intros tg vis t text I. rewrite orb_true_iff, field_slice, field_array.
          cbn [snd]. split; (intros [H|H]; [left|right]); try assumption; [|now left]. eapply slice_form; [apply (FI _ _ _ I)|exact H]. }
        assert (B : existsb f_slice l = true <-> exists x, In x fs /\ slice_field (snd x)).
        { apply (existsb_described _ _ fs l D). intros tg vis t text I. rewrite field_slice. cbn [snd].
          split; [|now left]. intros H. eapply slice_form; [apply (FI _ _ _ I)|exact H]. }
        split.
        + intros H (tg & vis & t & I & AF).
          assert (DL : declares_length l = true) by (apply A; exists (tg, vis, t); split; [exact I|now right]).
          rewrite DL in H. cbn [implb] in H. apply B in H as ([[tg' vis'] t'] & I' & S). now exists tg', vis', t'.
        + intros H. destruct (declares_length l) eqn:DL; [|reflexivity]. cbn [implb]. apply B.
          destruct (proj1 A eq_refl) as ([[tg vis] t] & I & [S|AF]); [now exists (tg, vis, t)|].
          destruct H as (tg' & vis' & t' & I' & S); [now exists tg, vis, t|]. now exists (tg', vis', t').
      - rewrite (filter_tmp E fs l D F' required_dec) by (intros x _; apply required_dec_iff).
        rewrite (at_most_one required required_dec fs) by (intros x _; apply required_dec_iff). split.
        + intros H f g h tg vis t tg' vis' t' Q R. apply (H f g h (tg, vis, t) (tg', vis', t') Q). exact R.
        + intros H f g h [[tg vis] t] [[tg' vis'] t'] Q. apply (H f g h tg vis t tg' vis' t' Q). }
    split.
    + intros [[F A] B]. destruct (G F) as [G1 G2]. split; [exact F|]. split; [now apply G1|now apply G2].
    + intros (F & A & B). destruct (G F) as [G1 G2]. split; [split; [exact F|now apply G1]|now apply G2].
  - split; [discriminate|]. intros (F & _). exfalso. 
    destruct (classify_all_ok fs) as (l & C' & _); [|congruence].
    intros vis t I. rewrite Forall_forall in F. apply F in I. cbv beta iota in I. now apply (form_optional E).
  - split; [discriminate|]. intros (F & _). exfalso. 
    destruct (classify_all_ok fs) as (l & C' & _); [|congruence].
    intros vis t I. rewrite Forall_forall in F. apply F in I. cbv beta iota in I. now apply (form_optional E).
Qed.

Lemma generator_panics fs : (exists m, GenUnmarshalFn fs = Panic m) <-> exists vis t, In (Optional, vis, t) fs /\ forall u, t <> TPtr u.
Proof.
  unfold GenUnmarshalFn. split.
  - intros (m & H). destruct (Exists_dec (fun fd : tag * visibility * gtype => is_optional (fst (fst fd)) && negb (pointer (snd fd)) = true) fs) as [X|X].
    + intros x. apply Bool.bool_dec.
    + apply Exists_exists in X as ([[tg vis] t] & I & X). cbn [fst snd] in X. destruct tg; try discriminate X.
      exists vis, t. split; [exact I|]. intros u ->. discriminate X.
    + exfalso. destruct (classify_all_ok fs) as (l & C & _); [|rewrite C in H; discriminate H].
      intros vis t I. destruct (pointer t) eqn:P; [reflexivity|]. exfalso. apply X. apply Exists_exists.
      exists (Optional, vis, t). split; [exact I|]. cbn [fst snd is_optional]. now rewrite P.
  - intros (vis & t & I & N). destruct (classify_all_panic fs vis t I) as (m & C).
    + destruct t; try reflexivity. now elim (N t).
    + rewrite C. now exists m.
Qed.
