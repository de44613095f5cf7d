(** Proofs about type names, lookups and the resolver. *)
From Verif Require Import Base BaseProofs Prog ProgProofs SpecWire AbiPrim Chain SpecChain Values AbiDyn SpecAbi.

(** ** Lookups *)
Lemma name_dec (a b : name) : {a = b} + {a <> b}.
Proof. apply list_eq_dec. apply Byte.byte_eq_dec. Qed.
Lemma eqb_name a b : bytes_eqb a b = true <-> a = b.
Proof. apply bytes_eqb_eq. Qed.
Lemma eqb_name_refl a : bytes_eqb a a = true.
Proof. now apply eqb_name. Qed.
Lemma eqb_name_neq a b : a <> b -> bytes_eqb a b = false.
Proof. intros H. destruct (bytes_eqb a b) eqn:E; [|reflexivity]. apply eqb_name in E. contradiction. Qed.

(** All the "first entry with this name" searches. *)
Definition find_key {A} (eqb : A -> bool) := fix go (l : list A) : option A :=
  match l with [] => None | x :: l => if eqb x then Some x else go l end.
Lemma find_key_spec {A} (eqb : A -> bool) (P : A -> Prop) (l : list A) :
  (forall x, eqb x = true <-> P x) ->
  match find_key eqb l with
  | Some x => exists pre post, l = pre ++ x :: post /\ P x /\ Forall (fun y => ~ P y) pre
  | None => Forall (fun y => ~ P y) l
  end.
Proof.
  intros H. induction l as [|x l IH]; cbn [find_key]; [constructor|].
  destruct (eqb x) eqn:E.
  - exists [], l. split; [reflexivity|]. split; [now apply H|constructor].
  - assert (N : ~ P x) by (intros C; apply H in C; congruence).
    destruct (find_key eqb l).
    + destruct IH as (pre & post & -> & Hp & F). exists (x :: pre), post.
      split; [reflexivity|]. split; [exact Hp|]. now constructor.
    + now constructor.
Qed.
Lemma GetStruct_spec l n :
  match GetStruct l n with Some s => first_named SName n l s | None => none_named SName n l end.
Proof.
  assert (E : GetStruct l n = find_key (fun s => bytes_eqb (SName s) n) l) by (induction l as [|x l IH]; [reflexivity|]; cbn; now rewrite IH).
  rewrite E. apply (find_key_spec _ (fun s => SName s = n)). intros; apply eqb_name.
Qed.
Lemma GetVariant_spec l n :
  match GetVariant l n with Some s => first_named VName n l s | None => none_named VName n l end.
Proof.
  assert (E : GetVariant l n = find_key (fun s => bytes_eqb (VName s) n) l) by (induction l as [|x l IH]; [reflexivity|]; cbn; now rewrite IH).
  rewrite E. apply (find_key_spec _ (fun s => VName s = n)). intros; apply eqb_name.
Qed.
Lemma GetType_spec l n :
  match GetType l n with Some s => first_named NewTypeName n l s | None => none_named NewTypeName n l end.
Proof.
  assert (E : GetType l n = find_key (fun s => bytes_eqb (NewTypeName s) n) l) by (induction l as [|x l IH]; [reflexivity|]; cbn; now rewrite IH).
  rewrite E. apply (find_key_spec _ (fun s => NewTypeName s = n)). intros; apply eqb_name.
Qed.
Lemma GetAction_spec l (n : Z) :
  match GetAction l n with
  | Some s => exists pre post, l = pre ++ s :: post /\ ActName s = n /\ Forall (fun y => ActName y <> n) pre
  | None => Forall (fun y => ActName y <> n) l end.
Proof.
  assert (E : GetAction l n = find_key (fun s => ActName s =? n) l) by (induction l as [|x l IH]; [reflexivity|]; cbn; now rewrite IH).
  rewrite E. apply (find_key_spec _ (fun s => ActName s = n)). intros; apply Z.eqb_eq.
Qed.
Lemma GetTable_spec l (n : Z) :
  match GetTable l n with
  | Some s => exists pre post, l = pre ++ s :: post /\ TName s = n /\ Forall (fun y => TName y <> n) pre
  | None => Forall (fun y => TName y <> n) l end.
Proof.
  assert (E : GetTable l n = find_key (fun s => TName s =? n) l) by (induction l as [|x l IH]; [reflexivity|]; cbn; now rewrite IH).
  rewrite E. apply (find_key_spec _ (fun s => TName s = n)). intros; apply Z.eqb_eq.
Qed.

Lemma first_named_fun {A} (key : A -> name) n l x y :
  first_named key n l x -> first_named key n l y -> x = y.
Proof.
  intros (p1 & q1 & E1 & K1 & F1) (p2 & q2 & E2 & K2 & F2). subst l. revert p2 E2 F2.
  induction p1 as [|z p1 IH]; intros [|w p2] E F2; cbn in E.
  - congruence.
  - injection E as -> _. inversion F2; subst. contradiction.
  - injection E as -> _. inversion F1; subst. contradiction.
  - injection E as -> E. inversion F1; inversion F2; subst. eapply IH; eauto.
Qed.
Lemma first_named_in {A} (key : A -> name) n l x : first_named key n l x -> In x l.
Proof. intros (p & q & -> & _). apply in_elt. Qed.
Lemma first_none {A} (key : A -> name) n l x : first_named key n l x -> none_named key n l -> False.
Proof.
  intros (p & q & -> & K & _) N. apply Forall_app in N. destruct N as [_ N]. inversion N; subst. contradiction.
Qed.
Lemma defines_fun a b d d' : defines a b d -> defines a b d' -> d = d'.
Proof.
  intros H H'. destruct H; inversion H'; subst; try reflexivity;
    try (exfalso; eauto using @first_none; fail).
  - now rewrite (first_named_fun _ _ _ _ _ H H0).
  - now rewrite (first_named_fun _ _ _ _ _ H0 H2).
  - now rewrite (first_named_fun _ _ _ _ _ H1 H4).
Qed.
Lemma defines_total a b : exists d, defines a b d.
Proof.
  pose proof (GetStruct_spec (Structs a) b) as HS. destruct (GetStruct (Structs a) b).
  { eexists. eapply def_struct; eauto. }
  pose proof (GetVariant_spec (Variants a) b) as HV. destruct (GetVariant (Variants a) b).
  { eexists. eapply def_variant; eauto. }
  pose proof (GetType_spec (Types a) b) as HT. destruct (GetType (Types a) b).
  { eexists. eapply def_alias; eauto. }
  eexists. now apply def_none.
Qed.

(** ** Names *)
Lemma last_byte_spec s :
  match last_byte s with Some (i, c) => s = i ++ [c] | None => s = [] end.
Proof.
  unfold last_byte. destruct (rev s) as [|c r] eqn:E.
  - apply (f_equal (@rev byte)) in E. now rewrite rev_involutive in E.
  - apply (f_equal (@rev byte)) in E. now rewrite rev_involutive in E.
Qed.
Lemma last_byte_app s c : last_byte (s ++ [c]) = Some (s, c).
Proof. unfold last_byte. rewrite rev_app_distr. cbn. now rewrite rev_involutive. Qed.
Lemma ends_last s c d : ends_with (s ++ [c]) [d] <-> c = d.
Proof.
  split.
  - intros [p E]. now apply app_inj_tail in E.
  - intros ->. now exists s.
Qed.
Lemma ends_last2 s c0 c1 d0 d1 : ends_with (s ++ [c0; c1]) [d0; d1] <-> c0 = d0 /\ c1 = d1.
Proof.
  split.
  - intros [p E]. rewrite !app_assoc with (m := [_]) (n := [_]) in E || idtac.
    change [c0; c1] with ([c0] ++ [c1]) in E. change [d0; d1] with ([d0] ++ [d1]) in E.
    rewrite !app_assoc in E. apply app_inj_tail in E. destruct E as [E ->].
    apply app_inj_tail in E. now destruct E as [_ ->].
  - intros [-> ->]. now exists s.
Qed.

Lemma decomposes_intro n b (arr opt ext : bool) core mid :
  (if opt then n = mid ++ str "?" else n = mid /\ ~ ends_with n (str "?")) ->
  (if ext then mid = core ++ str "$" else mid = core /\ ~ ends_with mid (str "$")) ->
  (2 <= length core)%nat ->
  (if arr then core = b ++ str "[]" else core = b /\ ~ ends_with core (str "[]")) ->
  decomposes n b arr opt ext.
Proof. intros. exists core, mid. auto. Qed.

Lemma parse_sound n b arr opt ext :
  parse_name n = Some (b, arr, opt, ext) -> decomposes n b arr opt ext.
Proof.
  unfold parse_name. pose proof (last_byte_spec n) as L1.
  destruct (last_byte n) as [[i1 c1]|]; [|discriminate].
  set (mid := if Byte.eqb c1 x3f then i1 else n).
  pose proof (last_byte_spec mid) as L2. destruct (last_byte mid) as [[i2 c2]|]; [|discriminate].
  set (core := if Byte.eqb c2 x24 then i2 else mid).
  pose proof (last_byte_spec core) as L3. destruct (last_byte core) as [[i3 c3]|]; [|discriminate].
  pose proof (last_byte_spec i3) as L4. destruct (last_byte i3) as [[i4 c4]|]; [|discriminate].
  intros E. injection E as <- <- <- <-.
  apply decomposes_intro with (core := core) (mid := mid).
  - subst mid. destruct (Byte.eqb c1 x3f) eqn:E1.
    + apply Byte.byte_dec_bl in E1. subst c1. exact L1.
    + split; [reflexivity|]. rewrite L1. intros H. apply ends_last in H. subst c1. cbn in E1. discriminate.
  - subst core. destruct (Byte.eqb c2 x24) eqn:E1.
    + apply Byte.byte_dec_bl in E1. subst c2. exact L2.
    + split; [reflexivity|]. rewrite L2. intros H. apply ends_last in H. subst c2. cbn in E1. discriminate.
  - rewrite L3, L4, !app_length. cbn. lia.
  - assert (Ec : core = i4 ++ [c4; c3]) by (rewrite L3, L4, <- app_assoc; reflexivity).
    destruct (Byte.eqb c4 x5b && Byte.eqb c3 x5d) eqn:E1.
    + apply andb_prop in E1. destruct E1 as [A B].
      apply Byte.byte_dec_bl in A. apply Byte.byte_dec_bl in B. subst c3 c4. exact Ec.
    + split; [reflexivity|]. rewrite Ec. intros H. apply ends_last2 in H. destruct H as [-> ->].
      cbn in E1. discriminate.
Qed.

Lemma ends_with_intro p s : ends_with (p ++ s) s.
Proof. now exists p. Qed.
Lemma parse_complete n b arr opt ext :
  decomposes n b arr opt ext -> parse_name n = Some (b, arr, opt, ext).
Proof.
  intros (core & mid & Hn & Hm & Hl & Hb). unfold parse_name.
  assert (Lc : exists i c0 c1, core = i ++ [c0; c1]).
  { destruct (last_byte core) as [[i c]|] eqn:E; pose proof (last_byte_spec core) as S; rewrite E in S; subst.
    - rewrite app_length in Hl. cbn in Hl.
      destruct (last_byte i) as [[j d]|] eqn:E2; pose proof (last_byte_spec i) as S2; rewrite E2 in S2; subst.
      + exists j, d, c. now rewrite <- app_assoc.
      + cbn in Hl. lia.
    - cbn in Hl. lia. }
  destruct Lc as (i & c0 & c1 & Ec).
  assert (Em : exists j d, mid = j ++ [d] /\ (if ext then j = core /\ d = x24 else mid = core /\ d <> x24)).
  { destruct ext.
    - subst mid. exists core, x24. auto.
    - destruct Hm as [-> Hm]. exists (i ++ [c0]), c1. rewrite Ec, <- app_assoc. split; [reflexivity|].
      split; [reflexivity|]. intros ->. apply Hm. rewrite Ec. now exists (i ++ [c0]); rewrite <- app_assoc. }
  destruct Em as (j & d & Em & Hd).
  assert (En : exists k e, n = k ++ [e] /\ (if opt then k = mid /\ e = x3f else n = mid /\ e <> x3f)).
  { destruct opt.
    - subst n. exists mid, x3f. auto.
    - destruct Hn as [-> Hn]. exists j, d. split; [exact Em|]. split; [reflexivity|].
      intros ->. apply Hn. rewrite Em. now exists j. }
  destruct En as (k & e & En & He).
  rewrite En at 1. rewrite last_byte_app.
  assert (X1 : Byte.eqb e x3f = opt /\ (if Byte.eqb e x3f then k else n) = mid).
  { destruct opt; destruct He as [H1 H2].
    - subst e k. cbn. auto.
    - destruct (Byte.eqb e x3f) eqn:E; [apply Byte.byte_dec_bl in E; contradiction|]. auto. }
  destruct X1 as [X1 X2]. rewrite X2, X1. rewrite Em at 1. rewrite last_byte_app.
  assert (Y1 : Byte.eqb d x24 = ext /\ (if Byte.eqb d x24 then j else mid) = core).
  { destruct ext; destruct Hd as [H1 H2].
    - subst d j. cbn. auto.
    - destruct (Byte.eqb d x24) eqn:E; [apply Byte.byte_dec_bl in E; contradiction|]. auto. }
  destruct Y1 as [Y1 Y2]. rewrite Y2, Y1.
  assert (Ec' : core = (i ++ [c0]) ++ [c1]) by (rewrite Ec, <- app_assoc; reflexivity).
  rewrite Ec' at 1. rewrite last_byte_app, last_byte_app.
  destruct arr.
  - assert (Hx : i ++ [c0; c1] = b ++ [x5b; x5d]) by (rewrite <- Ec; exact Hb).
    change [c0; c1] with ([c0] ++ [c1]) in Hx. change [x5b; x5d] with ([x5b] ++ [x5d]) in Hx.
    rewrite !app_assoc in Hx. apply app_inj_tail in Hx. destruct Hx as [Hx ->].
    apply app_inj_tail in Hx. destruct Hx as [-> ->]. reflexivity.
  - destruct Hb as [Hb Hnb]. subst b.
    destruct (Byte.eqb c0 x5b && Byte.eqb c1 x5d) eqn:E; [|reflexivity].
    apply andb_prop in E. destruct E as [A B]. apply Byte.byte_dec_bl in A. apply Byte.byte_dec_bl in B.
    subst c0 c1. exfalso. apply Hnb. rewrite Ec. apply ends_with_intro.
Qed.
Lemma decomposes_fun n b arr opt ext b' arr' opt' ext' :
  decomposes n b arr opt ext -> decomposes n b' arr' opt' ext' ->
  b = b' /\ arr = arr' /\ opt = opt' /\ ext = ext'.
Proof.
  intros H H'. apply parse_complete in H. apply parse_complete in H'. rewrite H in H'.
  injection H' as -> -> -> ->. auto.
Qed.
Lemma parse_malformed n : parse_name n = None <-> malformed n.
Proof.
  split.
  - intros E b arr opt ext D. apply parse_complete in D. congruence.
  - intros M. destruct (parse_name n) as [[[[b arr] opt] ext]|] eqn:E; [|reflexivity].
    apply parse_sound in E. now apply M in E.
Qed.

(** ** The table *)
Definition dom {A} (m : list (name * A)) (n : name) : Prop := exists t, lookup m n = Some t.
Lemma lookup_cons_eq {A} n (t : A) m : lookup ((n, t) :: m) n = Some t.
Proof. cbn [lookup]. now rewrite eqb_name_refl. Qed.
Lemma lookup_cons_ne {A} n k (t : A) m : k <> n -> lookup ((n, t) :: m) k = lookup m k.
Proof. intros H. cbn [lookup]. now rewrite eqb_name_neq by congruence. Qed.
Lemma lookup_update tbl n f k :
  lookup (update tbl n f) k = if bytes_eqb k n then option_map f (lookup tbl k) else lookup tbl k.
Proof.
  induction tbl as [|[m t] tbl IH]; cbn [update map lookup].
  - now destruct (bytes_eqb k n).
  - destruct (bytes_eqb m k) eqn:E.
    + apply eqb_name in E. subst m. now destruct (bytes_eqb k n).
    + exact IH.
Qed.
Lemma lookup_update_eq tbl n f : lookup (update tbl n f) n = option_map f (lookup tbl n).
Proof. now rewrite lookup_update, eqb_name_refl. Qed.
Lemma lookup_update_ne tbl n f k : k <> n -> lookup (update tbl n f) k = lookup tbl k.
Proof. intros H. now rewrite lookup_update, eqb_name_neq. Qed.

Definition rt_children (t : rtype) : list name :=
  match t_base t with Some b => [b] | None => [] end
  ++ match t_fields t with Some l => map snd l | None => [] end
  ++ match t_variant t with Some l => l | None => [] end
  ++ match t_ref t with Some r => [r] | None => [] end.

(** What a call of resolve does to the table. *)
Definition grows (a : Abi) (n : name) (tbl tbl' : rtable) : Prop :=
  (forall k t, lookup tbl k = Some t -> lookup tbl' k = Some t)
  /\ (forall k t, lookup tbl' k = Some t -> lookup tbl k = None ->
        describes a t k /\ reach a n k /\ forall c, In c (rt_children t) -> dom tbl' c).
Lemma grows_refl a n tbl : grows a n tbl tbl.
Proof. split; [auto|]. intros k t H N. congruence. Qed.
Lemma reach_trans a n m k : reach a n m -> reach a m k -> reach a n k.
Proof. intros H1 H2. induction H2; [exact H1|]. eapply reach_step; eauto. Qed.

(** While the object for [n] is being filled in: [tbl] is the table when the call
    began, [t] the object so far. *)
Definition filling (a : Abi) (n : name) (t : rtype) (tbl tbl' : rtable) : Prop :=
  lookup tbl n = None
  /\ lookup tbl' n = Some t
  /\ (forall k u, lookup tbl k = Some u -> lookup tbl' k = Some u)
  /\ (forall c, In c (rt_children t) -> dom tbl' c)
  /\ (forall k u, k <> n -> lookup tbl' k = Some u -> lookup tbl k = None ->
        describes a u k /\ reach a n k /\ forall c, In c (rt_children u) -> dom tbl' c).
Lemma filling_grows a n t tbl tbl' c tbl'' :
  filling a n t tbl tbl' -> reach a n c -> grows a c tbl' tbl'' -> filling a n t tbl tbl''.
Proof.
  intros (H1 & H2 & H3 & H4 & H5) R [G1 G2].
  assert (Dm : forall x, dom tbl' x -> dom tbl'' x) by (intros x [y Y]; exists y; now apply G1).
  split; [exact H1|]. split; [now apply G1|]. split; [intros; now apply G1, H3|].
  split; [intros x Hx; now apply Dm, H4|].
  intros k u N L L0. destruct (lookup tbl' k) as [w|] eqn:E.
  - assert (u = w) by (apply G1 in E; congruence). subst w.
    destruct (H5 k u N E L0) as (A & B & C). split; [exact A|]. split; [exact B|]. intros. now apply Dm, C.
  - destruct (G2 k u L E) as (A & B & C). split; [exact A|]. split; [eapply reach_trans; eauto|exact C].
Qed.
Lemma dom_update tbl n f k : dom tbl k -> dom (update tbl n f) k.
Proof.
  intros [t H]. unfold dom. rewrite lookup_update. destruct (bytes_eqb k n); rewrite H; cbn; eauto.
Qed.
Lemma filling_update a n t f tbl tbl' :
  filling a n t tbl tbl' -> (forall c, In c (rt_children (f t)) -> dom tbl' c) ->
  filling a n (f t) tbl (update tbl' n f).
Proof.
  intros (H1 & H2 & H3 & H4 & H5) C. split; [exact H1|].
  split; [now rewrite lookup_update_eq, H2|].
  split.
  { intros k u L. rewrite lookup_update_ne; [auto|]. intros ->. congruence. }
  split; [intros; now apply dom_update, C|].
  intros k u N L L0. rewrite lookup_update_ne in L by exact N.
  destruct (H5 k u N L L0) as (A & B & D). split; [exact A|]. split; [exact B|]. intros; now apply dom_update, D.
Qed.
Lemma filling_done a n t tbl tbl' : filling a n t tbl tbl' -> describes a t n -> grows a n tbl tbl'.
Proof.
  intros (H1 & H2 & H3 & H4 & H5) D. split; [exact H3|].
  intros k u L L0. destruct (name_dec k n) as [->|N].
  - assert (u = t) by congruence. subst u. split; [exact D|]. split; [constructor|exact H4].
  - now apply H5.
Qed.

Definition fres_ok (a : Abi) (n : name) (r : fres) (post : rtable -> Prop) : Prop :=
  match r with
  | None => True
  | Some (Ok tbl) => post tbl
  | Some (Err _) => False
  | Some (Panic _) => exists k, reach a n k /\ malformed k
  end.
Definition rec_ok (a : Abi) (rec : name -> rtable -> fres) : Prop :=
  forall n tbl, fres_ok a n (rec n tbl) (fun tbl' => grows a n tbl tbl' /\ dom tbl' n).

Lemma fbind_ok a n r f (P Q : rtable -> Prop) :
  fres_ok a n r P -> (forall t, P t -> fres_ok a n (f t) Q) -> fres_ok a n (fbind r f) Q.
Proof. destruct r as [[t|e|m]|]; cbn; auto. Qed.
Lemma fres_reach a n m r P : reach a n m -> fres_ok a m r P -> fres_ok a n r P.
Proof.
  intros R. destruct r as [[t|e|s]|]; cbn; auto. intros (k & H & M). exists k. split; [eapply reach_trans; eauto|exact M].
Qed.
Lemma fres_weaken a n r (P Q : rtable -> Prop) : (forall t, P t -> Q t) -> fres_ok a n r P -> fres_ok a n r Q.
Proof. destruct r as [[t|e|s]|]; cbn; auto. Qed.

Lemma rt_children_in t c :
  In c (rt_children t) <->
  t_base t = Some c \/ (exists l, t_fields t = Some l /\ In c (map snd l))
  \/ (exists l, t_variant t = Some l /\ In c l) \/ t_ref t = Some c.
Proof.
  unfold rt_children. rewrite !in_app_iff.
  destruct (t_base t), (t_fields t), (t_variant t), (t_ref t); cbn; split; intros H;
    repeat match goal with
    | H : _ \/ _ |- _ => destruct H
    | H : exists _, _ |- _ => destruct H
    | H : _ /\ _ |- _ => destruct H
    | H : False |- _ => destruct H
    end; subst; try discriminate;
    repeat match goal with H : Some _ = Some _ |- _ => injection H as -> end; eauto 10.
Qed.
Lemma children_add_field t fd : incl (rt_children (add_field fd t)) (snd fd :: rt_children t).
Proof.
  intros c H. apply rt_children_in in H. cbn [t_base t_fields t_variant t_ref add_field set_fields] in H.
  destruct H as [H|[[l [E H]]|[H|H]]].
  - right. apply rt_children_in. auto.
  - injection E as <-. destruct (t_fields t) as [l|] eqn:E.
    + rewrite map_app, in_app_iff in H. destruct H as [H|[<-|[]]]; [right|now left].
      apply rt_children_in. right; left. eauto.
    + destruct H as [<-|[]]. now left.
  - right. apply rt_children_in. auto.
  - right. apply rt_children_in. auto.
Qed.
Lemma children_add_variant t v : incl (rt_children (add_variant v t)) (v :: rt_children t).
Proof.
  intros c H. apply rt_children_in in H. cbn [t_base t_fields t_variant t_ref add_variant set_variant] in H.
  destruct H as [H|[H|[[l [E H]]|H]]].
  - right. apply rt_children_in. auto.
  - right. apply rt_children_in. auto.
  - injection E as <-. destruct (t_variant t) as [l|] eqn:E.
    + rewrite in_app_iff in H. destruct H as [H|[<-|[]]]; [right|now left].
      apply rt_children_in. right; right; left. eauto.
    + destruct H as [<-|[]]. now left.
  - right. apply rt_children_in. auto.
Qed.

Definition fd_pair (f : AbiField) : name * name := (FName f, FType f).
Lemma resolve_fields_ok a rec n tbl0 : rec_ok a rec -> forall l done t tbl,
  (forall f, In f l -> reach a n (FType f)) ->
  t_fields t = Some done ->
  filling a n t tbl0 tbl ->
  fres_ok a n (resolve_fields rec n l tbl) (filling a n (set_fields (done ++ map fd_pair l) t) tbl0).
Proof.
  intros Hrec. induction l as [|f l IH]; intros done t tbl Hr Ht Fi; cbn [resolve_fields].
  - cbn [map]. rewrite app_nil_r. replace (set_fields done t) with t; [exact Fi|].
    destruct t; cbn in *. subst. reflexivity.
  - eapply fbind_ok.
    + eapply fres_reach; [apply Hr; now left|]. apply Hrec.
    + intros tbl1 [G D].
      assert (Fi1 : filling a n t tbl0 tbl1) by (eapply filling_grows; [exact Fi| |exact G]; apply Hr; now left).
      assert (Fi2 : filling a n (add_field (FName f, FType f) t) tbl0
                      (update tbl1 n (add_field (FName f, FType f)))).
      { apply filling_update; [exact Fi1|]. intros c Hc. apply children_add_field in Hc.
        destruct Hc as [<-|Hc]; [exact D|]. destruct Fi1 as (_ & _ & _ & C & _). now apply C. }
      eapply fres_weaken; [|apply (IH (done ++ [fd_pair f]) (add_field (FName f, FType f) t)); [intros; apply Hr; now right| |exact Fi2]].
      * cbn [map]. intros x. rewrite <- app_assoc. cbn [app].
        unfold add_field at 1. exact (fun h => h).
      * cbn [t_fields add_field set_fields]. now rewrite Ht.
Qed.
Lemma resolve_variants_ok a rec n tbl0 : rec_ok a rec -> forall l done t tbl,
  (forall v, In v l -> reach a n v) ->
  t_variant t = Some done ->
  filling a n t tbl0 tbl ->
  fres_ok a n (resolve_variants rec n l tbl) (filling a n (set_variant (done ++ l) t) tbl0).
Proof.
  intros Hrec. induction l as [|f l IH]; intros done t tbl Hr Ht Fi; cbn [resolve_variants].
  - rewrite app_nil_r. replace (set_variant done t) with t; [exact Fi|].
    destruct t; cbn in *. subst. reflexivity.
  - eapply fbind_ok.
    + eapply fres_reach; [apply Hr; now left|]. apply Hrec.
    + intros tbl1 [G D].
      assert (Fi1 : filling a n t tbl0 tbl1) by (eapply filling_grows; [exact Fi| |exact G]; apply Hr; now left).
      assert (Fi2 : filling a n (add_variant f t) tbl0 (update tbl1 n (add_variant f))).
      { apply filling_update; [exact Fi1|]. intros c Hc. apply children_add_variant in Hc.
        destruct Hc as [<-|Hc]; [exact D|]. destruct Fi1 as (_ & _ & _ & C & _). now apply C. }
      eapply fres_weaken; [|apply (IH (done ++ [f]) (add_variant f t)); [intros; apply Hr; now right| |exact Fi2]].
      * intros x. rewrite <- app_assoc. cbn [app]. exact (fun h => h).
      * cbn [t_variant add_variant set_variant]. now rewrite Ht.
Qed.

Lemma resolve_ok a fuel : rec_ok a (resolve fuel a).
Proof.
  induction fuel as [|fuel IH]; intros n tbl; cbn [resolve].
  { destruct (lookup tbl n) eqn:E; [|exact I]. cbn. split; [apply grows_refl|now exists r]. }
  destruct (lookup tbl n) as [t0|] eqn:E0.
  { cbn. split; [apply grows_refl|now exists t0]. }
  destruct (parse_name n) as [[[[b arr] opt] ext]|] eqn:EP.
  2:{ cbn. exists n. split; [constructor|now apply parse_malformed]. }
  apply parse_sound in EP.
  set (t := {| t_name := n; t_baseName := b; t_isArray := arr; t_isOptional := opt; t_isExtension := ext;
               t_base := None; t_fields := None; t_variant := None; t_ref := None |}).
  assert (Fi0 : filling a n t tbl ((n, t) :: tbl)).
  { split; [exact E0|]. split; [apply lookup_cons_eq|]. split.
    { intros k u L. rewrite lookup_cons_ne; [exact L|]. intros ->. congruence. }
    split; [intros c []|].
    intros k u N L L0. rewrite lookup_cons_ne in L by exact N. congruence. }
  assert (Fin : forall u tbl', filling a n u tbl tbl' -> describes a u n -> grows a n tbl tbl' /\ dom tbl' n).
  { intros u tbl' Fi D. split; [eapply filling_done; eauto|]. destruct Fi as (_ & L & _). now exists u. }
  pose proof (GetStruct_spec (Structs a) b) as HS.
  destruct (GetStruct (Structs a) b) as [s|] eqn:ES.
  { set (fs := map fd_pair (SFields s)).
    assert (Hd : defines a b (DStruct (match SBase s with [] => None | p => Some p end) fs)) by now apply def_struct.
    assert (Hr : forall f, In f (SFields s) -> reach a n (FType f)).
    { intros f Hf. eapply reach_step; [constructor|exact EP|exact Hd|].
      cbn. apply in_or_app. right. apply in_map_iff. exists (fd_pair f). split; [reflexivity|].
      apply in_map_iff. eauto. }
    assert (Fi1 : filling a n (set_fields [] t) tbl (update ((n, t) :: tbl) n (set_fields []))).
    { apply filling_update; [exact Fi0|]. intros c []. }
    eapply fbind_ok with (P := filling a n (match SBase s with [] => set_fields [] t | p => set_base p (set_fields [] t) end) tbl).
    - destruct (SBase s) as [|p0 ps] eqn:EB; [exact Fi1|].
      eapply fbind_ok.
      + assert (Rb : reach a n (p0 :: ps)).
        { eapply reach_step; [constructor|exact EP|exact Hd|]. left. reflexivity. }
        eapply fres_weaken; [|eapply fres_reach; [exact Rb|apply IH]].
        intros tb [G D]. exact (conj (filling_grows _ _ _ _ _ _ _ Fi1 Rb G) D).
      + intros tb [Fi2 D]. cbn [fres_ok]. apply filling_update; [exact Fi2|].
        intros c Hc. apply rt_children_in in Hc. cbn in Hc.
        destruct Hc as [Hc|[[l [Hc Hl]]|[[l [Hc Hl]]|Hc]]]; try discriminate.
        * injection Hc as <-. exact D.
        * injection Hc as <-. destruct Hl.
    - intros tb Fi2. eapply fres_weaken; [|eapply resolve_fields_ok with (done := []); [exact IH|exact Hr| |exact Fi2]].
      + intros tb' Fi3. eapply Fin; [exact Fi3|].
        split; [destruct (SBase s); reflexivity|]. split; [destruct (SBase s); exact EP|].
        cbn. destruct (SBase s); cbn; exact Hd.
      + destruct (SBase s); reflexivity. }
  pose proof (GetVariant_spec (Variants a) b) as HV.
  destruct (GetVariant (Variants a) b) as [v|] eqn:EV.
  { assert (Hd : defines a b (DVariant (VTypes v))) by now apply def_variant.
    eapply fres_weaken; [|eapply resolve_variants_ok with (done := []); [exact IH| | |]].
    4:{ apply filling_update; [exact Fi0|]. intros c []. }
    - intros tb Fi. eapply Fin; [exact Fi|]. split; [reflexivity|]. split; [exact EP|]. exact Hd.
    - intros x Hx. eapply reach_step; [constructor|exact EP|exact Hd|exact Hx].
    - reflexivity. }
  pose proof (GetType_spec (Types a) b) as HT.
  destruct (GetType (Types a) b) as [ty|] eqn:ET.
  { assert (Hd : defines a b (DAlias (AType ty))) by now apply def_alias.
    assert (Rt : reach a n (AType ty)) by (eapply reach_step; [constructor|exact EP|exact Hd|now left]).
    eapply fbind_ok.
    - eapply fres_weaken; [|eapply fres_reach; [exact Rt|apply IH]].
      intros tb [G D]. exact (conj (filling_grows _ _ _ _ _ _ _ Fi0 Rt G) D).
    - intros tb [Fi D]. cbn [fres_ok]. eapply Fin.
      + apply filling_update; [exact Fi|]. intros c Hc. apply rt_children_in in Hc. cbn in Hc.
        destruct Hc as [Hc|[[l [Hc Hl]]|[[l [Hc Hl]]|Hc]]]; try discriminate.
        injection Hc as <-. exact D.
      + split; [reflexivity|]. split; [exact EP|]. exact Hd. }
  cbn [fres_ok]. eapply Fin; [exact Fi0|]. split; [reflexivity|]. split; [exact EP|]. now apply def_none.
Qed.

(** ** Termination of the resolver *)
Definition memb (tbl : rtable) (n : name) : bool :=
  match lookup tbl n with Some _ => true | None => false end.
Definition todo (a : Abi) (tbl : rtable) : nat :=
  length (filter (fun n => negb (memb tbl n)) (abi_names a)).
Lemma filter_le {A} (f g : A -> bool) l : (forall x, f x = true -> g x = true) ->
  (length (filter f l) <= length (filter g l))%nat.
Proof.
  intros H. induction l as [|x l IH]; cbn; [lia|].
  destruct (f x) eqn:E; [rewrite (H x E); cbn; lia|]. destruct (g x); cbn; lia.
Qed.
Lemma filter_lt {A} (f g : A -> bool) l y : (forall x, f x = true -> g x = true) ->
  In y l -> f y = false -> g y = true -> (length (filter f l) < length (filter g l))%nat.
Proof.
  intros H. induction l as [|x l IH]; intros Hy F G; [destruct Hy|].
  cbn. destruct Hy as [->|Hy].
  - rewrite F, G. cbn. pose proof (filter_le f g l H). lia.
  - specialize (IH Hy F G). destruct (f x) eqn:E; [rewrite (H x E); cbn; lia|]. destruct (g x); cbn; lia.
Qed.
Lemma todo_mono a tbl tbl' : (forall k, dom tbl k -> dom tbl' k) -> (todo a tbl' <= todo a tbl)%nat.
Proof.
  intros H. apply filter_le. intros x. unfold memb. intros E.
  destruct (lookup tbl x) eqn:L; [|reflexivity]. destruct (H x (ex_intro _ _ L)) as [t ->] in E. discriminate.
Qed.
Lemma todo_cons a tbl n t : lookup tbl n = None -> In n (abi_names a) ->
  (todo a ((n, t) :: tbl) < todo a tbl)%nat.
Proof.
  intros L H. apply filter_lt with (y := n); [|exact H| |].
  - intros x. unfold memb. destruct (name_dec x n) as [->|N].
    + rewrite lookup_cons_eq. discriminate.
    + rewrite lookup_cons_ne by exact N. auto.
  - unfold memb. now rewrite lookup_cons_eq.
  - unfold memb. now rewrite L.
Qed.
Lemma dom_update_iff tbl n f k : dom (update tbl n f) k <-> dom tbl k.
Proof.
  split; [|apply dom_update]. intros [t H]. rewrite lookup_update in H.
  destruct (bytes_eqb k n); [|eauto; now exists t]. destruct (lookup tbl k) eqn:E; [now exists r|discriminate].
Qed.
Lemma todo_update a tbl n f : todo a (update tbl n f) = todo a tbl.
Proof.
  apply Nat.le_antisymm; apply todo_mono; intros k; apply dom_update_iff.
Qed.
Definition rec_total (a : Abi) (fuel : nat) : Prop :=
  forall n tbl, In n (abi_names a) -> (todo a tbl <= fuel)%nat -> resolve fuel a n tbl <> None.
Lemma resolve_dom a fuel n tbl tbl' : resolve fuel a n tbl = Some (Ok tbl') -> forall k, dom tbl k -> dom tbl' k.
Proof.
  intros E k [t L]. pose proof (resolve_ok a fuel n tbl) as H. rewrite E in H.
  destruct H as [[G _] _]. exists t. now apply G.
Qed.
Lemma fields_total a fuel n : rec_total a fuel -> forall l tbl,
  (forall f, In f l -> In (FType f) (abi_names a)) -> (todo a tbl <= fuel)%nat ->
  resolve_fields (resolve fuel a) n l tbl <> None.
Proof.
  intros Hrec. induction l as [|f l IH]; intros tbl Hl Ht; cbn [resolve_fields]; [discriminate|].
  pose proof (Hrec (FType f) tbl (Hl f (or_introl eq_refl)) Ht) as N.
  destruct (resolve fuel a (FType f) tbl) as [[tb|e|m]|] eqn:E; cbn [fbind]; try discriminate; [|contradiction].
  apply IH; [intros; apply Hl; now right|]. rewrite todo_update.
  pose proof (todo_mono a tbl tb (resolve_dom _ _ _ _ _ E)). lia.
Qed.
Lemma variants_total a fuel n : rec_total a fuel -> forall l tbl,
  (forall f, In f l -> In f (abi_names a)) -> (todo a tbl <= fuel)%nat ->
  resolve_variants (resolve fuel a) n l tbl <> None.
Proof.
  intros Hrec. induction l as [|f l IH]; intros tbl Hl Ht; cbn [resolve_variants]; [discriminate|].
  pose proof (Hrec f tbl (Hl f (or_introl eq_refl)) Ht) as N.
  destruct (resolve fuel a f tbl) as [[tb|e|m]|] eqn:E; cbn [fbind]; try discriminate; [|contradiction].
  apply IH; [intros; apply Hl; now right|]. rewrite todo_update.
  pose proof (todo_mono a tbl tb (resolve_dom _ _ _ _ _ E)). lia.
Qed.
(** One step: whatever the name, [fuel] for what is reached from it suffices. *)
Lemma resolve_step_total a fuel n tbl t0 :
  rec_total a fuel -> (forall t, t_name t = t0 -> todo a ((n, t) :: tbl) <= fuel)%nat -> t0 = n ->
  resolve (S fuel) a n tbl <> None.
Proof.
  intros Hrec Ht ->. cbn [resolve]. destruct (lookup tbl n) eqn:E0; [discriminate|].
  destruct (parse_name n) as [[[[b arr] opt] ext]|]; [|discriminate].
  set (t := {| t_name := n; t_baseName := b; t_isArray := arr; t_isOptional := opt; t_isExtension := ext;
               t_base := None; t_fields := None; t_variant := None; t_ref := None |}).
  specialize (Ht t eq_refl).
  pose proof (GetStruct_spec (Structs a) b) as HS.
  destruct (GetStruct (Structs a) b) as [s|].
  { apply first_named_in in HS.
    assert (Hn : forall x, In x (SBase s :: map FType (SFields s)) -> In x (abi_names a)).
    { intros x Hx. unfold abi_names. apply in_or_app. left. apply in_flat_map. eauto. }
    assert (Hf : forall f, In f (SFields s) -> In (FType f) (abi_names a)).
    { intros f Hf. apply Hn. right. now apply in_map. }
    destruct (SBase s) as [|p0 ps] eqn:EB; cbn [fbind].
    - apply fields_total; [exact Hrec|exact Hf|]. now rewrite todo_update.
    - pose proof (Hrec (p0 :: ps) (update ((n, t) :: tbl) n (set_fields []))) as N.
      rewrite todo_update in N. specialize (N (Hn _ (or_introl eq_refl)) Ht).
      destruct (resolve fuel a (p0 :: ps) _) as [[tb|e|m]|] eqn:E; cbn [fbind]; try discriminate; [|contradiction].
      apply fields_total; [exact Hrec|exact Hf|]. rewrite todo_update.
      pose proof (todo_mono a _ _ (resolve_dom _ _ _ _ _ E)) as M. rewrite todo_update in M. lia. }
  pose proof (GetVariant_spec (Variants a) b) as HV.
  destruct (GetVariant (Variants a) b) as [v|].
  { apply first_named_in in HV. apply variants_total; [exact Hrec| |now rewrite todo_update].
    intros x Hx. unfold abi_names. apply in_or_app. right. apply in_or_app. left. apply in_flat_map. eauto. }
  pose proof (GetType_spec (Types a) b) as HT.
  destruct (GetType (Types a) b) as [ty|]; [|discriminate].
  apply first_named_in in HT.
  assert (Hin : In (AType ty) (abi_names a)).
  { unfold abi_names. apply in_or_app. right. apply in_or_app. right. now apply in_map. }
  pose proof (Hrec (AType ty) ((n, t) :: tbl) Hin Ht) as N.
  destruct (resolve fuel a (AType ty) _) as [[tb|e|m]|]; cbn [fbind]; try discriminate. contradiction.
Qed.
Lemma resolve_total a fuel : rec_total a fuel.
Proof.
  induction fuel as [|fuel IH]; intros n tbl Hn Ht.
  - cbn [resolve]. destruct (lookup tbl n) eqn:E; [discriminate|].
    exfalso. pose proof (todo_cons a tbl n
      {| t_name := n; t_baseName := n; t_isArray := false; t_isOptional := false; t_isExtension := false;
         t_base := None; t_fields := None; t_variant := None; t_ref := None |} E Hn). lia.
  - destruct (lookup tbl n) eqn:E; [cbn [resolve]; rewrite E; discriminate|].
    apply resolve_step_total with (t0 := n); [exact IH| |reflexivity].
    intros t _. pose proof (todo_cons a tbl n t E Hn). lia.
Qed.
Lemma resolve_terminates a n fuel : (resolve_fuel a <= fuel)%nat -> resolve fuel a n [] <> None.
Proof.
  intros H. unfold resolve_fuel in H. destruct fuel as [|fuel]; [lia|].
  apply resolve_step_total with (t0 := n); [apply resolve_total| |reflexivity].
  intros t _. unfold todo.
  assert (L : forall (f : name -> bool) l, (length (filter f l) <= length l)%nat).
  { intros f l. induction l as [|x l IHl]; cbn; [lia|]. destruct (f x); cbn; lia. }
  specialize (L (fun m => negb (memb [(n, t)] m)) (abi_names a)). lia.
Qed.

(** ** The outcome of resolution *)
Definition table_for (a : Abi) (n : name) (tbl : rtable) : Prop :=
  (forall m, dom tbl m <-> reach a n m) /\ (forall m t, lookup tbl m = Some t -> describes a t m).
Lemma describes_children a t n d b arr opt ext :
  describes a t n -> decomposes n b arr opt ext -> defines a b d ->
  forall c, In c (mentioned d) <-> In c (rt_children t).
Proof.
  intros (_ & D & M) D' Hd c. destruct (decomposes_fun _ _ _ _ _ _ _ _ _ D D') as (EB & _). rewrite EB in M.
  rewrite rt_children_in.
  destruct (t_base t) as [p|], (t_fields t) as [fs|], (t_variant t) as [vs|], (t_ref t) as [r|]; try contradiction;
    rewrite (defines_fun _ _ _ _ Hd M); cbn [mentioned app];
    split; intros H;
    repeat match goal with
    | H : _ \/ _ |- _ => destruct H
    | H : exists _, _ |- _ => destruct H
    | H : _ /\ _ |- _ => destruct H
    | H : In _ (_ :: _) |- _ => destruct H
    | H : In _ [] |- _ => destruct H
    end; subst; try discriminate;
    repeat match goal with H : Some _ = Some _ |- _ => injection H as -> end; cbn; eauto 10.
Qed.
Lemma resolve_table a n fuel tbl : resolve fuel a n [] = Some (Ok tbl) -> table_for a n tbl.
Proof.
  intros E. pose proof (resolve_ok a fuel n []) as H. rewrite E in H. destruct H as [[_ G] D].
  assert (Hd : forall m t, lookup tbl m = Some t -> describes a t m) by (intros m t L; apply G; auto).
  split; [|exact Hd].
  intros m. split.
  - intros [t L]. now apply (G m t L).
  - intros R. induction R as [|m b arr opt ext d k R IH DE DF Hk]; [exact D|].
    destruct IH as [t L]. destruct (G m t L eq_refl) as (Ds & _ & C).
    apply C. now apply (describes_children _ _ _ _ _ _ _ _ Ds DE DF).
Qed.
Lemma describes_wf a t n : describes a t n -> ~ malformed n.
Proof. intros (_ & D & _) M. now apply M in D. Qed.
Lemma resolve_outcome a n :
  (exists tbl, (forall fuel, (resolve_fuel a <= fuel)%nat -> exists tbl', resolve fuel a n [] = Some (Ok tbl') /\ table_for a n tbl')
     /\ resolve (resolve_fuel a) a n [] = Some (Ok tbl) /\ table_for a n tbl
     /\ forall m, reach a n m -> ~ malformed m)
  \/ ((forall fuel, (resolve_fuel a <= fuel)%nat -> exists s, resolve fuel a n [] = Some (Panic s))
      /\ exists m, reach a n m /\ malformed m).
Proof.
  pose proof (resolve_ok a (resolve_fuel a) n []) as H.
  pose proof (resolve_terminates a n (resolve_fuel a) (le_n _)) as T.
  destruct (resolve (resolve_fuel a) a n []) as [[tbl|e|s]|] eqn:E; cbn in H; try contradiction.
  - left. exists tbl. pose proof (resolve_table _ _ _ _ E) as TF.
    assert (W : forall m, reach a n m -> ~ malformed m).
    { intros m R. apply TF in R. destruct R as [t L]. apply TF in L. eapply describes_wf; eauto. }
    split; [|auto].
    intros fuel Hf. pose proof (resolve_terminates a n fuel Hf) as T'.
    pose proof (resolve_ok a fuel n []) as H'.
    destruct (resolve fuel a n []) as [[tbl'|e|s]|] eqn:E'; cbn in H'; try contradiction.
    + exists tbl'. split; [reflexivity|]. eapply resolve_table; eauto.
    + destruct H' as (m & R & M). now apply W in R.
  - right. split; [|exact H].
    intros fuel Hf. pose proof (resolve_terminates a n fuel Hf) as T'.
    pose proof (resolve_ok a fuel n []) as H'.
    destruct (resolve fuel a n []) as [[tbl'|e|s']|] eqn:E'; cbn in H'; try contradiction.
    + pose proof (resolve_table _ _ _ _ E') as TF. destruct H as (m & R & M).
      apply TF in R. destruct R as [t L]. apply TF in L. now apply describes_wf in L.
    + eauto.
Qed.

(** ** Inherited fields *)
Inductive inh_n (a : Abi) : nat -> name -> list (name * name) -> Prop :=
| inhn_root n b arr opt ext fs : decomposes n b arr opt ext -> defines a b (DStruct None fs) -> inh_n a 0 n fs
| inhn_base k n b arr opt ext p fs up : decomposes n b arr opt ext -> defines a b (DStruct (Some p) fs) ->
    inh_n a k p up -> inh_n a (S k) n (up ++ fs).
Lemma inherits_n a n fs : inherits a n fs <-> exists k, inh_n a k n fs.
Proof.
  split.
  - intros H. induction H.
    + exists O. econstructor; eauto.
    + destruct IHinherits as [k Hk]. exists (S k). econstructor; eauto.
  - intros [k H]. induction H; [eapply inh_root|eapply inh_base]; eauto.
Qed.
Lemma inh_n_fun a k n fs : inh_n a k n fs -> forall k' fs', inh_n a k' n fs' -> k = k' /\ fs = fs'.
Proof.
  intros H. induction H as [n b arr opt ext fs D F|k n b arr opt ext p fs up D F _ IH];
    intros k' fs' H'; inversion H' as [n' b' arr' opt' ext' fs'' D' F'|k'' n' b' arr' opt' ext' p' fs'' up' D' F' H'']; subst;
    destruct (decomposes_fun _ _ _ _ _ _ _ _ _ D D') as (<- & _);
    pose proof (defines_fun _ _ _ _ F F') as E; try discriminate.
  - injection E as ->. auto.
  - injection E as -> ->. apply IH in H''. destruct H'' as [-> ->]. auto.
Qed.
Lemma inherits_fun a n fs fs' : inherits a n fs -> inherits a n fs' -> fs = fs'.
Proof. rewrite !inherits_n. intros [k H] [k' H']. eapply inh_n_fun; eauto. Qed.

Lemma describes_struct a t n p fs :
  describes a t n -> t_fields t = Some fs -> t_base t = p ->
  exists b arr opt ext, decomposes n b arr opt ext /\ defines a b (DStruct p fs).
Proof.
  intros (_ & D & M) EF EB. rewrite EF, EB in M.
  destruct (t_variant t), (t_ref t), p; try contradiction; eauto 10.
Qed.
Lemma describes_of_struct a t n b arr opt ext p fs :
  describes a t n -> decomposes n b arr opt ext -> defines a b (DStruct p fs) ->
  t_fields t = Some fs /\ t_base t = p /\ t_variant t = None /\ t_ref t = None.
Proof.
  intros (_ & D & M) D' F. destruct (decomposes_fun _ _ _ _ _ _ _ _ _ D D') as (EB & _). rewrite EB in M.
  destruct (t_base t), (t_fields t), (t_variant t), (t_ref t); try contradiction;
    pose proof (defines_fun _ _ _ _ F M) as E; try discriminate; injection E as -> ->; auto.
Qed.

Lemma lookup_in {A} (m : list (name * A)) k v : lookup m k = Some v -> In k (map fst m).
Proof.
  induction m as [|[k' v'] m IH]; cbn [lookup map In]; [discriminate|].
  destruct (bytes_eqb k' k) eqn:E; [apply eqb_name in E; cbn; auto|]. cbn; auto.
Qed.

Lemma af_loop_sound a tbl : (forall m t, lookup tbl m = Some t -> describes a t m) ->
  forall fuel cur seen rv fs, allFields_loop fuel tbl cur seen rv = Some fs ->
  exists up, inherits a cur up /\ fs = up ++ rv.
Proof.
  intros HT. induction fuel as [|fuel IH]; intros cur seen rv fs; cbn [allFields_loop]; [discriminate|].
  destruct (lookup tbl cur) as [t|] eqn:L; [|discriminate].
  destruct (t_fields t) as [own|] eqn:EF; [|discriminate].
  destruct (existsb _ seen); [discriminate|].
  pose proof (HT _ _ L) as D.
  destruct (t_base t) as [p|] eqn:EB.
  - intros H. apply IH in H. destruct H as (up & Hu & ->).
    destruct (describes_struct _ _ _ _ _ D EF EB) as (b & arr & opt & ext & D1 & F1).
    exists (up ++ own). split; [eapply inh_base; eauto|now rewrite app_assoc].
  - intros E. injection E as <-.
    destruct (describes_struct _ _ _ _ _ D EF EB) as (b & arr & opt & ext & D1 & F1).
    exists own. split; [eapply inh_root; eauto|reflexivity].
Qed.
(** Names seen so far are strictly further from the root, so never met again, and
    there are at most as many of them as objects. *)
Lemma af_loop_complete a n0 tbl : table_for a n0 tbl ->
  forall k cur up, inh_n a k cur up -> forall fuel seen rv,
  dom tbl cur -> NoDup seen ->
  (forall s, In s seen -> dom tbl s /\ exists k' u, inh_n a k' s u /\ (k < k')%nat) ->
  (length tbl < fuel + length seen)%nat ->
  allFields_loop fuel tbl cur seen rv = Some (up ++ rv).
Proof.
  intros [TD TF] k cur up H.
  induction H as [n b arr opt ext fs D F|k n b arr opt ext p fs up D F Hp IH];
    intros fuel seen rv Dm ND Hs Hl.
  all: destruct fuel as [|fuel];
    [exfalso; assert (length seen <= length (map fst tbl))%nat;
     [apply NoDup_incl_length; [exact ND|]; intros s Hsn; destruct (Hs s Hsn) as [[t L] _]; eapply lookup_in; eauto
     |rewrite map_length in *; lia]|].
  all: cbn [allFields_loop]; destruct Dm as [t L]; rewrite L;
    pose proof (TF _ _ L) as Ds; destruct (describes_of_struct _ _ _ _ _ _ _ _ _ Ds D F) as (-> & -> & _ & _).
  all: assert (Hn : t_name t = n) by (now destruct Ds); rewrite Hn.
  all: assert (Ex : existsb (bytes_eqb n) seen = false).
  1,3: apply not_true_is_false; intros Ex; apply existsb_exists in Ex; destruct Ex as (s & Hin & Es);
       apply eqb_name in Es; subst s; destruct (Hs _ Hin) as [_ (k' & u & Hk & Lt)].
  { destruct (inh_n_fun _ _ _ _ (inhn_root _ _ _ _ _ _ _ D F) _ _ Hk). lia. }
  { destruct (inh_n_fun _ _ _ _ (inhn_base _ _ _ _ _ _ _ _ _ _ D F Hp) _ _ Hk). lia. }
  - rewrite Ex. reflexivity.
  - rewrite Ex. rewrite <- app_assoc. apply IH.
    + apply TD. eapply reach_step; [apply TD; exists t; exact L|exact D|exact F|]. cbn. auto.
    + constructor; [|exact ND]. intros Hin. destruct (Hs _ Hin) as [_ (k' & u & Hk & Lt)].
      destruct (inh_n_fun _ _ _ _ (inhn_base _ _ _ _ _ _ _ _ _ _ D F Hp) _ _ Hk). lia.
    + intros s [<-|Hin].
      * split; [now exists t|]. exists (S k), (up ++ fs). split; [econstructor; eauto|lia].
      * destruct (Hs _ Hin) as [Hd (k' & u & Hk & Lt)]. split; [exact Hd|]. exists k', u. split; [exact Hk|lia].
    + cbn [length]. lia.
Qed.
Lemma allFields_spec a n0 tbl n : table_for a n0 tbl -> dom tbl n ->
  forall fs, allFields tbl n = Some fs <-> inherits a n fs /\ fs <> [].
Proof.
  intros TB Dm fs. unfold allFields. split.
  - intros H. destruct (allFields_loop _ tbl n [] []) as [l|] eqn:E; [|discriminate].
    apply (af_loop_sound a) in E; [|apply TB]. destruct E as (up & Hu & E). rewrite app_nil_r in E. subst l.
    destruct up as [|x up]; [discriminate|]. injection H as <-. split; [exact Hu|discriminate].
  - intros [H N]. apply inherits_n in H. destruct H as [k H].
    rewrite (af_loop_complete a n0 tbl TB k n fs H); [| |constructor|intros s []|cbn; lia].
    + rewrite app_nil_r. destruct fs; [contradiction|reflexivity].
    + exact Dm.
Qed.
Lemma allFields_none a n0 tbl n : table_for a n0 tbl -> dom tbl n ->
  (allFields tbl n = None <-> forall fs, inherits a n fs -> fs = []).
Proof.
  intros TB Dm. split.
  - intros E fs H. destruct fs as [|x fs]; [reflexivity|].
    assert (C : allFields tbl n = Some (x :: fs)) by (apply (allFields_spec a n0 tbl n TB Dm); split; [exact H|discriminate]).
    congruence.
  - intros H. destruct (allFields tbl n) as [fs|] eqn:E; [|reflexivity].
    apply (allFields_spec a n0 tbl n TB Dm) in E. destruct E as [E N]. now apply H in E.
Qed.
