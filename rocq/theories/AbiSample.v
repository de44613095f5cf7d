(** A concrete ABI, and how to compute what it reaches. *)
From Verif Require Import Base Prog AbiPrim BaseProofs SpecWire ProgProofs AbiPrimProofs Chain SpecChain ChainProofs
  Values Leaf SpecLeaf LeafProofs AbiDyn SpecAbi AbiResolveProofs AbiCodecProofs AbiTermProofs AbiStrictProofs AbiApiProofs.

Lemma reach_in a n tbl : resolve (resolve_fuel a) a n [] = Some (Ok tbl) ->
  forall m, reach a n m -> In m (map fst tbl).
Proof.
  intros E m R. destruct (resolve_outcome a n) as [(tbl' & _ & E' & T & _)|(P & _)].
  - rewrite E in E'. injection E' as <-. apply (proj1 T) in R. destruct R as (t & R). apply lookup_In in R.
    apply (in_map fst) in R. exact R.
  - destruct (P _ (Nat.le_refl _)) as (s & Q). congruence.
Qed.
Lemma well_named_ok a n tbl : resolve (resolve_fuel a) a n [] = Some (Ok tbl) -> well_named a n.
Proof.
  intros E. destruct (resolve_outcome a n) as [(_ & _ & _ & _ & W)|(P & _)]; [exact W|].
  destruct (P _ (Nat.le_refl _)) as (s & Q). congruence.
Qed.

Definition field (f t : string) : AbiField := {| FName := str f; FType := str t |}.
Definition abi_of (types : list (string * string)) (structs : list (string * string * list AbiField)) (variants : list (string * list string)) : Abi :=
  {| Version := str "eosio::abi/1.1";
     Types := map (fun '(n, t) => {| NewTypeName := str n; AType := str t |}) types;
     Structs := map (fun '(n, b, fs) => {| SName := str n; SBase := str b; SFields := fs |}) structs;
     AbiActions := [{| ActName := 1; ActType := str "transfer"; RicardianContract := [] |}];
     Tables := []; Clauses := []; ErrorMessages := []; AbiExtensions := [];
     Variants := map (fun '(n, l) => {| VName := str n; VTypes := map str l |}) variants |}.
(** struct transfer : base { qty : uint64?, tags : string[], kind : choice, next : transfer[], note : uint8$ } *)
Definition sample : Abi := (abi_of [("account", "name")]
  [("base", "", [field "from" "account"]);
   ("transfer", "base", [field "qty" "uint64?"; field "tags" "string[]"; field "kind" "choice"; field "next" "transfer[]"; field "note" "uint8$"])]
  [("choice", ["uint8"; "account"])])%string.
Definition sample_value : gval :=
  VMap [(str "tags", VSlice [VPrim (PString (str "a")); VPrim (PString [])]); (str "from", VPrim (PName 5));
        (str "kind", VSlice [VPrim (PString (str "account")); VPrim (PName 7)]); (str "next", VSlice []);
        (str "extra", VOther 3); (str "note", VPrim (PU8 9))].
Definition sample_bytes : list byte :=
  [x05; x00; x00; x00; x00; x00; x00; x00; x00; x02; x01; x61; x00; x01; x07; x00; x00; x00; x00; x00; x00; x00; x00; x09].
Definition sample_back : gval :=
  VMap [(str "from", VPrim (PName 5)); (str "qty", VNil); (str "tags", VSlice [VPrim (PString (str "a")); VPrim (PString [])]);
        (str "kind", VSlice [VPrim (PString (str "account")); VPrim (PName 7)]); (str "next", VSlice []); (str "note", VPrim (PU8 9))].
Lemma sample_encodes : encodes sample (str "transfer") sample_value [] (WDone None sample_bytes).
Proof. apply (encodes_at _ _ _ _ _ 10); [vm_compute; reflexivity|discriminate]. Qed.
Lemma sample_decodes : decodes {| r_end := EOF; r_strict := true |} sample (str "transfer") sample_bytes (Done (sample_back, None) []).
Proof. apply (decodes_at _ _ _ _ _ 10); [vm_compute; reflexivity|discriminate]. Qed.
Lemma sample_wf : wf_gval sample_value.
Proof.
  repeat (constructor; cbn [snd]); try exact I; try (vm_compute; split; congruence). all: lia.
Qed.
Lemma sample_names : forall m, reach sample (str "transfer") m ->
  In m (map str ["transfer"; "base"; "account"; "name"; "uint64?"; "string[]"; "choice"; "uint8"; "transfer[]"; "uint8$"]%string).
Proof.
  intros m R. destruct (resolve (resolve_fuel sample) sample (str "transfer") []) as [[tbl| |]|] eqn:E; try (vm_compute in E; discriminate).
  apply (reach_in _ _ _ E) in R. vm_compute in E. injection E as <-. cbn [map fst In] in R |- *. vm_compute in R |- *. tauto.
Qed.

(** Acyclicity by a rank that decreases along the table. *)
Lemma direct_table a n0 tbl n t m : table_for a n0 tbl -> lookup tbl n = Some t -> direct a n m ->
  t_isArray t = false /\ t_isOptional t = false
  /\ (t_ref t = Some m \/ t_ref t = None /\ exists fs f, allFields tbl n = Some fs /\ In (f, m) fs).
Proof.
  intros T L (b & ext & D & H). pose proof (proj2 T _ _ L) as Ds.
  destruct (describes_flags _ _ _ _ _ _ _ Ds D) as (N & EB & EA & EO & EX). split; [exact EA|]. split; [exact EO|].
  destruct H as [H|(fs & f & I & F)]; [left; eapply inner_alias; eauto|right].
  destruct (inner_struct _ _ _ _ _ _ T L Ds I) as [E1 E2]; [intros ->; destruct F|]. rewrite N in E2. eauto.
Qed.
Definition rank_ok (rank : name -> nat) (tbl : rtable) : bool :=
  forallb (fun '(m, t) =>
    (t_isArray t || t_isOptional t)
    || match t_ref t with
       | Some r => rank r <? rank m
       | None => match allFields tbl m with
                 | Some fs => forallb (fun '(_, k) => rank k <? rank m) fs
                 | None => true
                 end
       end)%nat tbl.
Lemma path_rank {A} (R : A -> A -> Prop) (P : A -> Prop) (rank : A -> nat) :
  (forall x y, P x -> R x y -> P y /\ (rank y < rank x)%nat) -> forall x y, P x -> path R x y -> (rank y < rank x)%nat.
Proof.
  intros H x y Px PA. induction PA as [x y Rxy|x y z Rxy PA IH].
  - now apply H.
  - destruct (H x y Px Rxy) as [Py L]. specialize (IH Py). lia.
Qed.
Lemma acyclic_check a n tbl rank : resolve (resolve_fuel a) a n [] = Some (Ok tbl) -> rank_ok rank tbl = true -> acyclic a n.
Proof.
  intros E K m R PA. destruct (resolve_outcome a n) as [(tbl' & _ & E' & T & _)|(P & _)];
    [|destruct (P _ (Nat.le_refl _)) as (s & Q); congruence].
  rewrite E in E'. injection E' as <-.
  enough (Q : (rank m < rank m)%nat) by lia.
  apply (path_rank (direct a) (reach a n) rank) with (x := m) (y := m); [|exact R|exact PA].
  clear m R PA. intros x y R Hd. destruct (proj1 T x) as [_ B]. destruct (B R) as (t & L).
  destruct (direct_table _ _ _ _ _ _ T L Hd) as (E1 & E2 & H).
  pose proof (proj1 (forallb_forall _ _) K _ (lookup_In _ _ _ L)) as Q. cbn beta iota in Q. rewrite E1, E2 in Q. cbn [orb] in Q.
  split.
  - destruct Hd as (b & ext & D & [H'|(fs & f & I & F)]).
    + eapply reach_step; [exact R|exact D|exact H'|cbn; auto].
    + eapply inherits_reach; eauto.
  - destruct H as [H|(H & fs & f & A & I)]; rewrite H in Q; [now apply Nat.ltb_lt|].
    rewrite A in Q. pose proof (proj1 (forallb_forall _ _) Q _ I) as Q'. cbn beta iota in Q'. now apply Nat.ltb_lt.
Qed.
Definition alias_ok (rank : name -> nat) (tbl : rtable) : bool :=
  forallb (fun '(m, t) => t_isArray t || match t_ref t with Some r => rank r <? rank m | None => true end)%nat tbl.
Lemma alias_check a n tbl rank : resolve (resolve_fuel a) a n [] = Some (Ok tbl) -> alias_ok rank tbl = true -> alias_acyclic a n.
Proof.
  intros E K m R PA. destruct (resolve_outcome a n) as [(tbl' & _ & E' & T & _)|(P & _)];
    [|destruct (P _ (Nat.le_refl _)) as (s & Q); congruence].
  rewrite E in E'. injection E' as <-.
  enough (Q : (rank m < rank m)%nat) by lia.
  apply (path_rank (plain_alias a) (reach a n) rank) with (x := m) (y := m); [|exact R|exact PA].
  clear m R PA. intros x y R (b & opt & ext & D & H). destruct (proj1 T x) as [_ B]. destruct (B R) as (t & L).
  pose proof (proj2 T _ _ L) as Ds. destruct (describes_flags _ _ _ _ _ _ _ Ds D) as (N & EB & EA & EO & EX).
  pose proof (proj1 (forallb_forall _ _) K _ (lookup_In _ _ _ L)) as Q. cbn beta iota in Q. rewrite EA in Q. cbn [orb] in Q.
  rewrite (inner_alias _ _ _ _ _ _ _ _ Ds D H) in Q. split; [|now apply Nat.ltb_lt].
  eapply reach_step; [exact R|exact D|exact H|cbn; auto].
Qed.
Definition sample_rank (n : name) : nat :=
  if bytes_eqb n (str "transfer") then 3 else if bytes_eqb n (str "base") then 3 else if bytes_eqb n (str "account") then 1 else 0.
Lemma sample_acyclic : acyclic sample (str "transfer") /\ alias_acyclic sample (str "transfer").
Proof.
  split; [eapply (acyclic_check _ _ _ sample_rank)|eapply (alias_check _ _ _ sample_rank)]; vm_compute; reflexivity.
Qed.
