(** C09-C11: names. *)
From Verif Require Import Base Name SpecName NameProofs.

(** C09: every 64-bit value survives the trip through its text, and the text is the
    canonical spelling of that value. *)
Theorem C09_roundtrip : forall n, 0 <= n < 2 ^ 64 -> NewName (Name_String n) = n.
Proof. exact name_roundtrip. Qed.
Print Assumptions C09_roundtrip.
Theorem C09_canonical_text : forall n, 0 <= n < 2 ^ 64 ->
  canonical_name (Name_String n) /\ name_word 0 (Name_String n) = n.
Proof. intros n H. split; [now apply name_canonical|now apply name_word_string]. Qed.
Print Assumptions C09_canonical_text.
Theorem C09_text_api : forall n old, 0 <= n < 2 ^ 64 ->
  Name_UnmarshalText old (Name_String n) = (n, None).
Proof. intros n old H. unfold Name_UnmarshalText. now rewrite name_roundtrip. Qed.
Print Assumptions C09_text_api.
(** Consequently distinct values have distinct texts. *)
Theorem C09_injective : forall m n, 0 <= m < 2 ^ 64 -> 0 <= n < 2 ^ 64 ->
  Name_String m = Name_String n -> m = n.
Proof. intros m n Hm Hn H. now rewrite <- (name_roundtrip m Hm), H, name_roundtrip. Qed.
Print Assumptions C09_injective.
Example C09_example : Name_String 6138663577826885632 = str "eosio"
  /\ Name_String 14595364149838066048 = str "teamgreymass" /\ Name_String 18446744073709551615 = str "zzzzzzzzzzzzj".
Proof. vm_compute. auto. Qed.

(** C10: any string denotes the name of its normal form, normal forms are fixed
    points, and exactly the canonical strings are unchanged. *)
Theorem C10_normal_form : forall s, zlen s < 2 ^ 32 -> Name_String (NewName s) = normalise s.
Proof. intros s H. rewrite name_normalise. fold (eff s). now rewrite eff_small. Qed.
Print Assumptions C10_normal_form.
(** Longer strings: the length is taken modulo 2^32 first. *)
Theorem C10_normal_form_any_length : forall s,
  Name_String (NewName s) = normalise (firstn (Z.to_nat (zlen s mod 2 ^ 32)) s).
Proof. exact name_normalise. Qed.
Print Assumptions C10_normal_form_any_length.
Theorem C10_always_canonical : forall s, 0 <= NewName s < 2 ^ 64 /\ canonical_name (Name_String (NewName s)).
Proof. intros s. split; [apply NewName_range|apply name_canonical, NewName_range]. Qed.
Print Assumptions C10_always_canonical.
Theorem C10_unchanged_iff : forall s,
  Name_String (NewName s) = s <-> canonical_name s.
Proof. exact name_fixed. Qed.
Print Assumptions C10_unchanged_iff.
Theorem C10_idempotent : forall s, NewName (Name_String (NewName s)) = NewName s.
Proof. intros s. apply name_roundtrip, NewName_range. Qed.
Print Assumptions C10_idempotent.
Example C10_example : canonical_name (str "teamgreymass")
  /\ Name_String (NewName (str "Hello!.")) = str ".ello" /\ ~ canonical_name (str "zzzzzzzzzzzzz").
Proof.
  split; [|split; [vm_compute; reflexivity|]].
  - split; [vm_compute; lia|]. split; [repeat constructor; discriminate|]. split; [discriminate|]. discriminate.
  - intros [_ [_ [_ H]]]. specialize (H _ eq_refl). revert H. vm_compute. intros H. now apply H.
Qed.

(** C11: numeric order of names is the byte order of their texts. *)
Theorem C11_order : forall a b, 0 <= a < 2 ^ 64 -> 0 <= b < 2 ^ 64 ->
  (a < b <-> str_lt (Name_String a) (Name_String b)).
Proof. exact name_order. Qed.
Print Assumptions C11_order.
(** [str_lt] is a strict total order, so this pins down comparison completely. *)
Theorem C11_order_is_total : forall a b c,
  ~ str_lt a a /\ (str_lt a b -> str_lt b c -> str_lt a c) /\ (str_lt a b \/ a = b \/ str_lt b a).
Proof. intros a b c. split; [apply str_lt_irrefl|]. split; [apply str_lt_trans|apply str_lt_total]. Qed.
Print Assumptions C11_order_is_total.
Example C11_example : str_lt (Name_String (NewName (str "eosio"))) (Name_String (NewName (str "eosio.token")))
  /\ NewName (str "eosio") < NewName (str "eosio.token").
Proof. split; [vm_compute; intuition congruence|reflexivity]. Qed.
