(** C69: decoding by reflection comes to an end.  [fuel] bounds the depth of recursion;
    [Diverged] is a run that goes deeper, and if no bound is enough the Go program
    overflows its stack. *)
From Verif Require Import Base Prog SpecWire BaseProofs ProgProofs Values Leaf Reflect SpecReflect ReflectProofs SpecTerm AbiTermProofs TermProofs.

(** A run that has come to an end does not depend on the bound. *)
Theorem C69_fuel E t old fuel fuel' env inp : (fuel <= fuel')%nat -> run env (Decode fuel E t old) inp <> Diverged ->
  run env (Decode fuel' E t old) inp = run env (Decode fuel E t old) inp.
Proof. apply decode_stable. Qed.
Print Assumptions C69_fuel.
(** If every cycle of the types goes through a slice, a map, an optional field or a
    variant, then for each length of input there is a depth that is enough, whatever the
    input, the target and the reader. *)
Theorem C69_ends E t n : methods_end E -> grounded E t ->
  exists F, forall fuel env inp old, (F <= fuel)%nat -> (length inp <= n)%nat -> run env (Decode fuel E t old) inp <> Diverged.
Proof.
  intros M G. destruct (grounded_ends E M n t G) as [(F & H) _]. exists F. intros fuel env inp old L Li D.
  destruct (H fuel L env inp old Li Whole (or_introl eq_refl)) as [R _]. unfold ends, Decode in *. now rewrite D in R.
Qed.
Print Assumptions C69_ends.
(** For finite types there is one for all inputs. *)
Theorem C69_uniform E t : methods_end E -> nonrecursive E t ->
  exists F, forall fuel env inp old, (F <= fuel)%nat -> run env (Decode fuel E t old) inp <> Diverged.
Proof.
  intros M G. destruct (nonrecursive_ends E M t G) as [(F & H) _]. exists F. intros fuel env inp old L D.
  destruct (H fuel L env inp old I Whole (or_introl eq_refl)) as [R _]. unfold ends, Decode in *. now rewrite D in R.
Qed.
Print Assumptions C69_uniform.
(** A struct that begins with a pointer to itself is never decoded: no depth is enough
    on any input. *)
Theorem C69_self_refuted E t tg fs : head E t = TStruct ((tg, Exported, TPtr t) :: fs) -> tg = NoTag \/ tg = Extension ->
  forall fuel env inp, run env (Decode fuel E t (zero E t)) inp = Diverged.
Proof.
  intros H TG. unfold Decode.
  assert (Z : zero E t = RStruct (RPtr None :: map (fun fd : tag * visibility * gtype => zero_of (snd fd)) fs)).
  { unfold zero. rewrite H. now rewrite zero_struct. }
  intros fuel env inp. induction fuel as [fuel IH] using (well_founded_induction lt_wf).
  destruct fuel as [|[|fuel]]; [reflexivity| |].
  - cbn [decode]. rewrite H, Z. reflexivity.
  - remember (decode fuel E chain_decoder) as f eqn:Hf. rewrite decode_whole by (intros; congruence). cbn [decode]. rewrite <- Hf. rewrite H, Z at 1.
    rewrite run_dbind. cbn [get_fields]. rewrite run_dbind.
    assert (D : run env (through E (f Whole) (TPtr t) (RPtr None)) inp = Diverged).
    { unfold through. cbn [head]. rewrite run_dbind. subst f. now rewrite IH by lia. }
    destruct TG as [-> | ->]; cbn [get_field]; [now rewrite D|]. rewrite run_dbind. now rewrite D.
Qed.
Print Assumptions C69_self_refuted.

(** A tree: type 0 is a struct of a name and a slice of type 0. *)
Definition tree_types : types := {| declared := fun i => match i with O => TStruct [(NoTag, Exported, TLeaf KName); (NoTag, Exported, TSlice (TName 0));
   (Optional, Exported, TPtr (TName 0))] | _ => TOther end;
  size_of := fun _ => 40; marshals := no_marshal; unmarshals := no_unmarshal |}.
Lemma tree_methods : methods_end tree_types.
Proof. intros i old env inp. exact I. Qed.
Lemma immediate_cases E t' t : immediate E t' t ->
  match head E t with
  | TPtr u | TArray _ u => t' = u
  | TStruct fs => exists f, In f fs /\ t' = snd f /\ (fst (fst f) = NoTag \/ fst (fst f) = Extension)
  | _ => False
  end.
Proof.
  intros H. inversion H; subst; match goal with Q : head E t = _ |- _ => rewrite Q end; auto.
  eexists. split; [eassumption|]. split; [reflexivity|assumption].
Qed.
Example C69_tree : grounded tree_types (TName 0) /\ ~ nonrecursive tree_types (TName 0).
Proof.
  assert (L : Acc (immediate tree_types) (TLeaf KName)) by (constructor; intros y H; apply immediate_cases in H; destruct H).
  assert (S : Acc (immediate tree_types) (TSlice (TName 0))) by (constructor; intros y H; apply immediate_cases in H; destruct H).
  assert (T : Acc (immediate tree_types) (TName 0)).
  { constructor. intros y H. apply immediate_cases in H. cbn in H. destruct H as (f & [<-|[<-|[<-|[]]]] & -> & [Q|Q]); try discriminate Q; assumption. }
  assert (P : Acc (immediate tree_types) (TPtr (TName 0))) by (constructor; intros y H; apply immediate_cases in H; cbn in H; now subst).
  split.
  - assert (G : forall t t', reaches tree_types t t' -> In t [TName 0; TLeaf KName; TSlice (TName 0); TPtr (TName 0)] ->
      In t' [TName 0; TLeaf KName; TSlice (TName 0); TPtr (TName 0)]).
    { induction 1 as [u|u u' u'' C R IH]; auto. intros Q. apply IH. apply component_cases in C.
      destruct Q as [<-|[<-|[<-|[<-|[]]]]]; cbn in C |- *; subst; auto; try contradiction.
      destruct C as (f & [<-|[<-|[<-|[]]]] & ->); cbn; auto. }
    intros t' R. apply G in R; [|cbn; auto]. destruct R as [<-|[<-|[<-|[<-|[]]]]]; assumption.
  - assert (X : forall t, Acc (component tree_types) t -> forall u, component tree_types u t -> component tree_types t u -> False).
    { intros t A. induction A as [t _ IH]. intros u C1 C2. exact (IH u C1 t C2 C1). }
    intros A. apply (X _ A (TSlice (TName 0))).
    + exists Slot, Slot. eapply pt_field; [reflexivity|]. right. left. reflexivity.
    + exists Slot, Slot. eapply pt_slice. reflexivity.
Qed.
(** The reader of the type that is not tied to a length of input. *)
Example C69_finite : methods_end tree_types
  /\ nonrecursive tree_types (TStruct [(Optional, Exported, TPtr (TLeaf KName)); (NoTag, Exported, TMap (TLeaf KString) (TSlice (TLeaf KTransaction)))]).
Proof. split; [exact tree_methods|]. now apply nameless_finite. Qed.
(** type list struct { next *list }; with the tag "optional" it is fine. *)
Definition list_types (tg : tag) : types := {| declared := fun _ => TStruct [(tg, Exported, TPtr (TName 0))];
  size_of := fun _ => 8; marshals := no_marshal; unmarshals := no_unmarshal |}.
Example C69_list : head (list_types NoTag) (TName 0) = TStruct [(NoTag, Exported, TPtr (TName 0))] /\ grounded (list_types Optional) (TName 0).
Proof.
  split; [reflexivity|].
  assert (T : Acc (immediate (list_types Optional)) (TName 0)).
  { constructor. intros y H. apply immediate_cases in H. cbn in H. destruct H as (f & [<-|[]] & -> & [Q|Q]); discriminate Q. }
  assert (P : Acc (immediate (list_types Optional)) (TPtr (TName 0))) by (constructor; intros y H; apply immediate_cases in H; cbn in H; now subst).
  assert (G : forall t t', reaches (list_types Optional) t t' -> In t [TName 0; TPtr (TName 0)] -> In t' [TName 0; TPtr (TName 0)]).
  { induction 1 as [u|u u' u'' C R IH]; auto. intros Q. apply IH. apply component_cases in C.
    destruct Q as [<-|[<-|[]]]; cbn in C |- *; subst; auto. destruct C as (f & [<-|[]] & ->); cbn; auto. }
  intros t' R. apply G in R; [|cbn; auto]. destruct R as [<-|[<-|[]]]; assumption.
Qed.
