(** C73: the text that the code generator prints.  It is a piece of Go source: two functions,
    and running them is what C56 and C57 are about. *)
From Verif Require Import Base Prog AbiPrim Chain Values Leaf SpecLeaf GoStd Numbers Reflect SpecReflect SpecCodegen Codegen CodegenText.
From Verif Require Import GoLang GoCheck GoParse GoNorm CodegenSource CodegenProgram CodegenRun CodegenCheck CodegenParse PropReflect PropCodegen.

(** An identifier: letters, digits and underscores, no digit at its beginning, not a keyword. *)
Definition go_name (w : list byte) : Prop := is_word w /\ a_name w = true.
Lemma good_fields names fs fl : Forall go_name names -> classify_all fs = Ok fl ->
  Forall (fun '(name, f) => is_word name /\ a_name name = true /\ good_field f) (combine names fl).
Proof.
  intros W C. apply classified_all in C. revert names W. induction C as [|[[tg vis] t] f fs fl CF _ IH]; intros [|n names] W; cbn [combine]; try constructor.
  - inversion W as [|? ? [W1 W2] _]; subst. split; [exact W1|]. split; [exact W2|exact (classified _ _ _ CF)].
  - inversion W; subst. now apply IH.
Qed.

(** The keywords of Go are no names, nor are numbers. *)
Example C73_keywords : Forall (fun w => ~ go_name (str w))
  ["break"; "case"; "chan"; "const"; "continue"; "default"; "defer"; "else"; "fallthrough"; "for"; "func"; "go"; "goto"; "if"; "import"; "interface";
   "map"; "package"; "range"; "return"; "select"; "struct"; "switch"; "type"; "var"; "1a"; ""; "a b"]%string.
Proof. repeat constructor; intros [[N W] A]; vm_compute in A, W; try discriminate; now apply N. Qed.

(** The text parses, whatever the struct.  It declares two functions, a method MarshalABI with
    a value receiver and a method UnmarshalABI with a pointer receiver, of the given struct
    type, with the parameters the interfaces ask for; nothing in it is left out.  The compiler
    accepts both exactly for the structs described by [compilable].  The names are those of
    the fields: they differ from each other, unless they are "_". *)
Definition well_named (names : list ident) (fs : fields) : Prop :=
  length names = length fs /\ NoDup (filter (fun n => negb (same_text n (str "_"))) names)
  /\ Forall2 (fun n g => snd (fst g) = Blank <-> n = str "_") names fs.
Theorem C73_source struct names fs text : go_name struct -> Forall go_name names ->
  GenUnmarshalFn_source struct names fs = Ok text ->
  exists F G, parse text = Some [F; G] /\ tokens_of text = Some (ftoks F ++ ftoks G)
    /\ (g_type F = struct /\ g_ptr F = false /\ g_name F = str "MarshalABI" /\ g_ptype F = str "Encoder")
    /\ (g_type G = struct /\ g_ptr G = true /\ g_name G = str "UnmarshalABI" /\ g_ptype G = str "Decoder")
    /\ (forall E, well_named names fs ->
          (func_ok E (combine names (map snd fs)) F = true /\ func_ok E (combine names (map snd fs)) G = true <-> compilable E fs))
    /\ forall E t fuel l, head E t = TStruct fs -> compiles E fs = true -> length names = length fs -> NoDup names ->
       has_type E any_leaf t (RStruct l) ->
       (forall o i out, runf o i (run_marshal (MarshalABI fuel E) E F (combine names (map snd fs)) l) out = runf o i (MarshalABI (S fuel) E t (RStruct l)) out)
       /\ (forall env inp, run env ('(l, err) <-- run_unmarshal (UnmarshalABI fuel E) E G (combine names (map snd fs)) l ;; DRet (RStruct l, err)) inp
             = run env (UnmarshalABI (S fuel) E t (RStruct l)) inp)
       /\ (forall env cs, run_chunks env ('(l, err) <-- run_unmarshal (UnmarshalABI fuel E) E G (combine names (map snd fs)) l ;; DRet (RStruct l, err)) cs
             = run_chunks env (UnmarshalABI (S fuel) E t (RStruct l)) cs).
Proof.
  intros [WS AS] WN GS. unfold GenUnmarshalFn_source in GS. destruct (classify_all fs) as [fl|e|m] eqn:CA; try discriminate GS. injection GS as <-.
  exists (norm_func (marshal_func struct (combine names fl))), (norm_func (unmarshal_func struct (combine names fl))).
  pose proof (good_fields names fs fl WN CA) as GF.
  split; [exact (source_parses struct _ WS AS GF)|]. split.
  { rewrite !ftoks_norm. apply (source_spells struct _ WS). eapply Forall_impl; [|exact GF]. intros [n f]. tauto. }
  split; [repeat split|]. split; [repeat split|]. split.
  { intros E (LN & ND & FN). rewrite !func_ok_norm by reflexivity. rewrite <- compiles_iff, <- (functions_compile E struct names fs fl CA LN ND FN). symmetry. apply andb_true_iff. }
  intros E t fuel l H C LN ND T.
  assert (TF : have_field_types E any_leaf fs l).
  { inversion T; subst; congruence. }
  destruct (functions_run E struct names fs fl (MarshalABI fuel E) (UnmarshalABI fuel E) l C CA LN ND TF) as [SM SU].
  pose proof (run_unmarshal_norm (UnmarshalABI fuel E) E (unmarshal_func struct (combine names fl)) (combine names (map snd fs)) l) as NU.
  pose proof (dsim_trans' _ _ _ NU SU) as SU1.
  assert (SU' : dsim eq ('(l, err) <-- run_unmarshal (UnmarshalABI fuel E) E (norm_func (unmarshal_func struct (combine names fl))) (combine names (map snd fs)) l ;; DRet (RStruct l, err))
    (UnmarshalABI (S fuel) E t (RStruct l))).
  { cbn [UnmarshalABI]. rewrite H. unfold GenUnmarshalFn. rewrite CA. cbn [rbind]. eapply dsim_bind; [exact SU1|]. intros [l1 e1] ? <-. now constructor. }
  split; [|split].
  - intros o i out. rewrite (esim_runf _ _ (run_marshal_norm (MarshalABI fuel E) E (marshal_func struct (combine names fl)) (combine names (map snd fs)) l)).
    rewrite (esim_runf _ _ SM). cbn [MarshalABI]. rewrite H. unfold GenUnmarshalFn. rewrite CA. reflexivity.
  - intros env inp. exact (dsim_run _ _ SU' env inp).
  - intros env cs. exact (dsim_run_chunks _ _ SU' env cs).
Qed.
Print Assumptions C73_source.
(** Functions that the compiler rejects: an assignment to something that is no variable, to one
    of another type, to one that is not declared; the length of a number; nil for a number; a
    variable declared twice, or not used; a wrong condition; a string for a length; no return. *)
Example C73_rejected :
  let decoder body := {| g_recv := str "s"; g_ptr := true; g_type := str "T"; g_name := str "UnmarshalABI"; g_param := str "d"; g_ptype := str "Decoder"; g_body := body |} in
  let ok body := func_ok record_types [(str "A", TLeaf KU32); (str "L", TSlice (TLeaf KU8)); (str "P", TPtr (TLeaf KU8)); (str "S", TLeaf KString)] (decoder body) in
  let v x := EVar x in
  let field x := ESel (v (str "s")) x in
  let declared s := GSeq (GVar (str "err") [word "error"]) (GSeq s (GReturn (v (str "err")))) in
  let read l := GSet l (ECall0 (ESel (v (str "d")) (str "ReadUint32"))) in
  let len a := ECall1 (v (str "len")) a in
  ok (declared (read [field (str "A"); v (str "err")])) = true
  /\ ok (declared (GSet [field (str "L")] (EMake [word "uint8"] (len (field (str "S")))))) = true
  /\ map ok
      [declared (read [EAddr (v (str "err")); v (str "err")]); declared (GSet [len (field (str "L"))] (len (field (str "L")))); declared (read [field (str "P"); v (str "err")]);
       declared (read [field (str "B"); v (str "err")]); declared (read [field (str "A")]); declared (read [field (str "A"); v (str "x")]); declared (GSet [v (str "err")] (v (str "x")));
       declared (GFor (str "i") (len (field (str "A"))) GSkip); declared (GFor (str "i") (len (field (str "P"))) GSkip); declared (GIf None (ENe (field (str "A")) (v (str "nil"))) GSkip);
       declared (GIf None (v (str "err")) GSkip); declared (GVar (str "err") [word "error"]); declared (GVar (str "x") [word "error"]);
       GSeq (GVar (str "err") [word "error"]) (read [field (str "A"); v (str "err")]); GReturn (field (str "A"));
       declared (GSet [field (str "L")] (EMake [word "uint8"] (field (str "S"))))] = repeat false 16.
Proof. vm_compute. repeat split. Qed.
(** The hypotheses are met by a struct with most forms of fields. *)
Definition record_names : list (list byte) := map str ["A"; "B"; "C_1"; "D"; "E2"; "F"]%string.
Example C73_source_record : well_named record_names record_fields /\ go_name (str "Record") /\ Forall go_name record_names /\ NoDup record_names /\ length record_names = length record_fields
  /\ (exists text, GenUnmarshalFn_source (str "Record") record_names record_fields = Ok text)
  /\ compiles record_types record_fields = true /\ head record_types record_struct = TStruct record_fields
  /\ has_type record_types sound_leaf record_struct record_value.
Proof.
  split; [split; [reflexivity|split; [vm_compute; repeat constructor; cbn; intuition discriminate|repeat constructor; discriminate]]|].
  split; [split; [split; [discriminate|reflexivity]|reflexivity]|]. split; [repeat constructor; discriminate|].
  split; [repeat constructor; cbn; intuition discriminate|]. split; [reflexivity|]. split; [eexists; reflexivity|].
  split; [reflexivity|]. split; [reflexivity|]. exact record_typed.
Qed.

(** There is a text for exactly the structs for which there is code. *)
Theorem C73_panics struct names fs : (exists text, GenUnmarshalFn_source struct names fs = Ok text) <->
  forall vis t, In (Optional, vis, t) fs -> exists u, t = TPtr u.
Proof.
  pose proof (C56_generator_panics fs) as P. unfold GenUnmarshalFn, GenUnmarshalFn_source in *. destruct (classify_all fs) as [fl|e|m] eqn:C; cbn [rbind] in *.
  - split; [|intros _; now eexists]. intros _ vis t I. destruct t as [| | |u| | | | | |]; try (exfalso; apply proj2 in P; destruct P as (m & X);
      [eexists _, _; split; [exact I|intros u; discriminate]|discriminate X]). now exists u.
  - exfalso. clear P. revert e C. induction fs as [|[[tg vis] t] fs IH]; intros e C; [discriminate C|]. cbn [classify_all] in C.
    pose proof (classify_text t tg) as X. destruct (is_optional tg && _); destruct X as (z & X); rewrite X in C; [discriminate C|]. cbn [rbind] in C.
    destruct (classify_all fs) as [l|e'|m]; try discriminate C. exact (IH _ eq_refl).
  - split; [intros (text & X); discriminate X|]. intros H. exfalso. destruct (proj1 P) as (vis & t & I & N); [now eexists|].
    destruct (H vis t I) as (u & ->). now apply (N u).
Qed.
Print Assumptions C73_panics.

(** What it looks like: struct { First *string; Rest []uint32 }. *)
Example C73_text : GenUnmarshalFn_source (str "Pair") [str "First"; str "Rest"]
    [(NoTag, Exported, TPtr (TLeaf KString)); (NoTag, Exported, TSlice (TLeaf KU32))] = Ok (str "
func (v Pair) MarshalABI(e *abi.Encoder) error {
	var err error
	var exists bool
	var length int
	exists = v.First != nil
	if exists {	
		if err = e.WriteString((*v.First)); err != nil {
			return err
		}
	} else {
		return errors.New(""encountered nil for non-optional field: First"")
	}
	length = len(v.Rest)
    if err = e.WriteVaruint(uint(length)); err != nil {
		return err
	}
	for i := 0; i < length; i++ {	
		if err = e.WriteUint32(v.Rest[i]); err != nil {
			return err
		}
	}
	return err
}


func (v *Pair) UnmarshalABI(d *abi.Decoder) error {
	var err error
	var length uint
	var tmp string
	if tmp, err = d.ReadString(); err != nil {
		return err
	}
	v.First = &tmp
	if length, err = d.ReadVaruint(); err != nil {
		return err
	}
	v.Rest = make([]uint32, length)
	for i := 0; i < int(length); i++ {	
		if v.Rest[i], err = d.ReadUint32(); err != nil {
			return err
		}
	}
	return err
}
").
Proof. vm_compute. reflexivity. Qed.

(** What the parser makes of such a text: struct { N uint8; Next *Node }. *)
Example C73_parse text : GenUnmarshalFn_source (str "Node") [str "N"; str "Next"]
    [(NoTag, Exported, TLeaf KU8); (Optional, Exported, TPtr (TName 0))] = Ok text ->
  let check_err l r := GIf (Some (l, r)) (ENe (EVar (str "err")) (EVar (str "nil"))) (GReturn (EVar (str "err"))) in
  parse text = Some
    [{| g_recv := str "v"; g_ptr := false; g_type := str "Node"; g_name := str "MarshalABI"; g_param := str "e"; g_ptype := str "Encoder";
        g_body := GSeq (GVar (str "err") [word "error"]) (GSeq (GVar (str "exists") [word "bool"])
          (GSeq (check_err [EVar (str "err")] (ECall1 (ESel (EVar (str "e")) (str "WriteUint8")) (ESel (EVar (str "v")) (str "N"))))
          (GSeq (GSet [EVar (str "exists")] (ENe (ESel (EVar (str "v")) (str "Next")) (EVar (str "nil"))))
          (GSeq (check_err [EVar (str "err")] (ECall1 (ESel (EVar (str "e")) (str "WriteBool")) (EVar (str "exists"))))
          (GSeq (GIf None (EVar (str "exists"))
                  (check_err [EVar (str "err")] (ECall1 (ESel (ESel (EVar (str "v")) (str "Next")) (str "MarshalABI")) (EVar (str "e")))))
          (GReturn (EVar (str "err")))))))) |};
     {| g_recv := str "v"; g_ptr := true; g_type := str "Node"; g_name := str "UnmarshalABI"; g_param := str "d"; g_ptype := str "Decoder";
        g_body := GSeq (GVar (str "err") [word "error"]) (GSeq (GVar (str "exists") [word "bool"])
          (GSeq (check_err [ESel (EVar (str "v")) (str "N"); EVar (str "err")] (ECall0 (ESel (EVar (str "d")) (str "ReadUint8"))))
          (GSeq (check_err [EVar (str "exists"); EVar (str "err")] (ECall0 (ESel (EVar (str "d")) (str "ReadBool"))))
          (GSeq (GIf None (EVar (str "exists"))
                  (check_err [EVar (str "err")] (ECall1 (ESel (ESel (EVar (str "v")) (str "Next")) (str "UnmarshalABI")) (EVar (str "d")))))
          (GReturn (EVar (str "err"))))))) |}].
Proof. intros H. vm_compute in H. injection H as <-. vm_compute. reflexivity. Qed.
