(** Proofs about the JSON forms: the order of keys. *)
From Coq Require Import Sorting.Permutation.
From Verif Require Import Base BaseProofs SpecJson Chain AbiDyn Json JsonProofs JsonCodecs JsonStrings.

(** The fields that the members of an object go to. *)
Definition target {T} fold (fs : list (jfield T)) (kj : list byte * json) : list (jfield T * json) :=
  match unquote (fst kj) with
  | Ok s => match find_field fold fs s with Some f => [(f, snd kj)] | None => [] end
  | _ => []
  end.
Definition readable (kj : list byte * json) : Prop := exists s, unquote (fst kj) = Ok s.
Fixpoint apply_list {T} (v : T) (l : list (jfield T * json)) : res T :=
  match l with [] => Ok v | (f, j) :: l => rbind (f_dec f v j) (fun v => apply_list v l) end.
Lemma dec_members_list {T} fold (fs : list (jfield T)) l : Forall readable l ->
  forall v, dec_members fold fs v l = apply_list v (flat_map (target fold fs) l).
Proof.
  induction 1 as [|[k j] l [s U] _ IH]; intros v; [reflexivity|]. cbn [fst] in U. cbn [dec_members flat_map]. unfold target at 1. cbn [fst snd]. rewrite U. cbn [rbind].
  destruct (find_field fold fs s) as [f|]; cbn [app apply_list]; [|apply IH]. destruct (f_dec f v j); cbn [rbind]; [apply IH|reflexivity..].
Qed.
Definition swap_ok {T} (f g : jfield T) : Prop := forall v a b w,
  rbind (f_dec f v a) (fun v => f_dec g v b) = Ok w -> rbind (f_dec g v b) (fun v => f_dec f v a) = Ok w.
Definition independent {T} (fs : list (jfield T)) : Prop := forall f g, In f fs -> In g fs -> f_name f <> f_name g -> swap_ok f g.
Lemma apply_swap {T} (f g : jfield T) a b v w l : swap_ok f g -> apply_list v ((f, a) :: (g, b) :: l) = Ok w -> apply_list v ((g, b) :: (f, a) :: l) = Ok w.
Proof.
  intros S. cbn [apply_list]. specialize (S v a b).
  destruct (f_dec f v a) as [v1| |] eqn:E1; cbn [rbind] in *; [|discriminate..].
  destruct (f_dec g v1 b) as [v2| |] eqn:E2; cbn [rbind] in *; [|discriminate..]. specialize (S v2 eq_refl).
  destruct (f_dec g v b) as [v3| |] eqn:E3; cbn [rbind] in *; [|discriminate..]. rewrite S. auto.
Qed.
Lemma apply_perm {T} (fs : list (jfield T)) l l' : independent fs -> Permutation l l' -> Forall (fun fj => In (fst fj) fs) l ->
  NoDup (map (fun fj => f_name (fst fj)) l) -> forall v w, apply_list v l = Ok w -> apply_list v l' = Ok w.
Proof.
  intros Ind P. induction P as [|[f j] l l' P IH|[f a] [g b] l|l l' l'' P IH P' IH']; intros F N v w; [auto| | |].
  - apply Forall_cons_iff in F as [_ F]. cbn [map] in N. apply NoDup_cons_iff in N as [_ N]. cbn [apply_list].
    destruct (f_dec f v j); cbn [rbind]; [now apply IH|discriminate..].
  - apply Forall_cons_iff in F as [A F]. apply Forall_cons_iff in F as [B F]. cbn [map fst] in *. apply NoDup_cons_iff in N as [N _].
    apply apply_swap, Ind; auto. intros E. apply N. left. now rewrite E.
  - intros E. apply IH'.
    + apply Forall_forall. intros x I. eapply Permutation_in in I; [|apply Permutation_sym; exact P]. rewrite Forall_forall in F. auto.
    + eapply Permutation_NoDup; [|exact N]. now apply Permutation_map.
    + now apply IH.
Qed.
Fixpoint given {T} (fs : list (jfield T)) (os : list (option json)) : list (jfield T * json) :=
  match fs, os with
  | f :: fs, Some j :: os => (f, j) :: given fs os
  | f :: fs, None :: os => given fs os
  | _, _ => []
  end.
Lemma given_names {T} (fs : list (jfield T)) : forall os n, In n (map (fun fj => f_name (fst fj)) (given fs os)) -> In n (map f_name fs).
Proof.
  induction fs as [|f fs IH]; intros os n; [destruct os; auto|]. destruct os as [|[j|] os]; cbn [given map fst]; [contradiction| |].
  - intros [<-|I]; [now left|right; now apply IH in I].
  - intros I. right. now apply IH in I.
Qed.
Lemma given_in {T} (fs : list (jfield T)) : forall os, Forall (fun fj => In (fst fj) fs) (given fs os).
Proof.
  induction fs as [|f fs IH]; intros os; [destruct os; constructor|]. destruct os as [|[j|] os]; cbn [given]; [constructor| |].
  - constructor; [now left|]. eapply Forall_impl; [|apply IH]. intros a I. now right.
  - eapply Forall_impl; [|apply IH]. intros a I. now right.
Qed.
Lemma given_nodup {T} (fs : list (jfield T)) : distinct (map f_name fs) = true -> forall os, NoDup (map (fun fj => f_name (fst fj)) (given fs os)).
Proof.
  induction fs as [|f fs IH]; intros D os; [destruct os; constructor|]. cbn [map distinct] in D. apply andb_prop in D as [N D].
  destruct os as [|[j|] os]; cbn [given map fst]; [constructor| |now apply IH]. constructor; [|now apply IH].
  intros I. apply given_names in I. apply negb_true_iff in N. assert (X : existsb (bytes_eqb (f_name f)) (map f_name fs) = true); [|congruence].
  apply existsb_exists. exists (f_name f). split; [exact I|apply bytes_eqb_refl].
Qed.
Lemma given_targets {T} fold (all fs : list (jfield T)) : named all -> (forall f, In f fs -> In f all) ->
  forall os, flat_map (target fold all) (members fs os) = given fs os /\ Forall readable (members fs os).
Proof.
  intros [D Q]. induction fs as [|f fs IH]; intros S os; [destruct os; split; constructor|].
  destruct os as [|[j|] os]; [split; constructor| |].
  - cbn [members flat_map given]. assert (I : In f all) by (apply S; now left).
    destruct (quiet_raw (f_name f)) as [_ U]; [eapply Forall_forall in Q; eassumption|].
    destruct (IH (fun g G => S g (or_intror G)) os) as [E R]. unfold target at 1. cbn [fst snd]. rewrite U. unfold find_field. rewrite find_named by assumption.
    cbn [app]. rewrite E. split; [reflexivity|]. constructor; [|exact R]. exists (f_name f). exact U.
  - cbn [members given]. apply IH. intros g G. apply S. now right.
Qed.
Lemma foreign_target {T} fold (fs : list (jfield T)) names kj : map f_name fs = map str names -> foreign fold names kj -> target fold fs kj = [] /\ readable kj.
Proof.
  intros E (s & Sp & F). destruct (spells_read _ _ Sp) as [G _]. assert (U : unquote (fst kj) = Ok s) by (unfold unquote; now rewrite G).
  split; [|exists s; exact U]. unfold target. rewrite U. unfold find_field.
  assert (K : forall f, In f fs -> bytes_eqb (f_name f) s = false /\ fold (f_name f) s = false).
  { intros f I. apply (in_map f_name) in I. rewrite E in I. apply in_map_iff in I as (n & <- & I). rewrite Forall_forall in F. destruct (F n I) as [A B].
    split; [|exact B]. destruct (bytes_eqb (str n) s) eqn:Q; [|reflexivity]. apply bytes_eqb_eq in Q. contradiction. }
  destruct (find (fun f => bytes_eqb (f_name f) s) fs) eqn:E1. { apply find_some in E1 as [I Q]. destruct (K _ I). congruence. }
  destruct (find (fun f => fold (f_name f) s) fs) eqn:E2; [|reflexivity]. apply find_some in E2 as [I Q]. destruct (K _ I). congruence.
Qed.
Lemma full_order {T} fold (fs : list (jfield T)) names old v P text l text' l' extra :
  named fs -> independent fs -> map f_name fs = map str names -> full (j_struct fold fs) old v P ->
  Marshal (j_struct fold fs) v text -> parse text = Some (JObj l) -> parse text' = Some (JObj l') -> Permutation (l ++ extra) l' ->
  Forall (foreign fold names) extra -> Unmarshal (j_struct fold fs) old text' = Ok v.
Proof.
  intros Nm Ind E [_ F] (j & M & ->) Pl Pl' Per X. destruct (F j M) as (G & D & _). apply (parse_printed _ _ G) in Pl. subst j.
  destruct M as (os & _ & M). injection M as ->. cbn [j_struct dec] in D. unfold Unmarshal. rewrite Pl'. cbn [j_struct dec].
  destruct (given_targets fold fs fs Nm (fun f H => H) os) as [Gt Rd].
  assert (Xt : flat_map (target fold fs) extra = [] /\ Forall readable extra).
  { clear Per. induction X as [|kj extra H _ [A B]]; [split; constructor|]. destruct (foreign_target fold fs names kj E H) as [H1 H2]. cbn [flat_map]. rewrite H1, A. split; [reflexivity|now constructor]. }
  destruct Xt as [Xt Xr]. rewrite dec_members_list in D by exact Rd. rewrite Gt in D.
  assert (Rd' : Forall readable l').
  { apply Forall_forall. intros x I. eapply Permutation_in in I; [|apply Permutation_sym; exact Per]. rewrite Forall_forall in Rd, Xr. apply in_app_iff in I as [I|I]; auto. }
  rewrite dec_members_list by exact Rd'. eapply apply_perm; [exact Ind| |apply given_in|apply given_nodup, Nm|exact D].
  rewrite <- (app_nil_r (given fs os)), <- Gt, <- Xt, <- flat_map_app. now apply Permutation_flat_map.
Qed.
(** Fields that are read and set on their own. *)
Definition lens {T A} (f : jfield T) (c : codec A) (get : T -> A) (set : T -> A -> T) : Prop :=
  forall v j, f_dec f v j = rbind (dec c (get v) j) (fun x => Ok (set v x)).
Lemma lens_swap {T A B} (f g : jfield T) (c : codec A) (d : codec B) get set get' set' : lens f c get set -> lens g d get' set' ->
  (forall v x, get' (set v x) = get' v) -> (forall v y, get (set' v y) = get v) -> (forall v x y, set' (set v x) y = set (set' v y) x) -> swap_ok f g.
Proof.
  intros L L' H1 H2 H3 v a b w. rewrite L, L'. destruct (dec c (get v) a) as [x| |] eqn:E; cbn [rbind]; [|discriminate..]. rewrite L', H1.
  destruct (dec d (get' v) b) as [y| |] eqn:E'; cbn [rbind]; [|discriminate..]. rewrite L, H2, E. cbn [rbind]. now rewrite H3.
Qed.
Lemma lens_fld {T A} name (c : codec A) (get : T -> A) set : lens (fld name c get set) c get set.
Proof. intros v j. reflexivity. Qed.
Lemma lens_omit {T A} name (c : codec (list A)) (get : T -> list A) set : lens (fld_omit name c get set) c get set.
Proof. intros v j. reflexivity. Qed.
Lemma lens_embedded {A} name (c : codec A) (get : TransactionHeader -> A) set :
  lens (embedded (fld name c get set)) c (fun v => get (Header v)) (fun v x => set_header v (set (Header v) x)).
Proof. intros v j. cbn [embedded fld f_dec]. now destruct (dec c (get (Header v)) j). Qed.
Ltac lens_of := lazymatch goal with
  | |- lens (fld _ _ _ _) _ _ _ => apply lens_fld
  | |- lens (fld_omit _ _ _ _) _ _ _ => apply lens_omit
  | |- lens (embedded _) _ _ _ => apply lens_embedded
  end.
Ltac independence :=
  let f := fresh "f" in let g := fresh "g" in let I := fresh "I" in let J := fresh "J" in let N := fresh "N" in
  intros f g I J N; cbn [map app In] in I, J;
  repeat (destruct I as [<-|I]; [repeat (destruct J as [<-|J]; [first [now elim N|eapply lens_swap; [lens_of|lens_of|reflexivity|reflexivity|reflexivity]]|]); destruct J|]); destruct I.
Lemma independent_PermissionLevel e : independent (PermissionLevel_fields e).
Proof. unfold PermissionLevel_fields. independence. Qed.
Lemma independent_Action e : independent (Action_fields e).
Proof. unfold Action_fields. independence. Qed.
Lemma independent_ExtendedAsset e : independent (ExtendedAsset_fields e).
Proof. unfold ExtendedAsset_fields. independence. Qed.
Lemma independent_Transaction e : independent (Transaction_fields e).
Proof. unfold Transaction_fields, TransactionHeader_fields. independence. Qed.
Lemma independent_Header e : independent (TransactionHeader_fields e).
Proof. unfold TransactionHeader_fields. independence. Qed.
Lemma independent_Extension e : independent (TransactionExtension_fields e).
Proof. unfold TransactionExtension_fields. independence. Qed.
Lemma independent_Abi e : independent (Abi_fields e).
Proof. unfold Abi_fields. independence. Qed.
