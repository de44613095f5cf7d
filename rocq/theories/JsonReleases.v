(** Programs built with different Go releases: what is read does not depend on how strings
    are escaped, what is printed does not depend on how keys are compared. *)
From Verif Require Import Base GoStd Chain AbiDyn Name Symbol Hex Numbers Time Keys Json.

Definition alike (reading : bool) {T} (c d : codec T) : Prop :=
  if reading then forall old j, dec c old j = dec d old j else forall v j, enc c v j -> enc d v j.
Definition alike_field (reading : bool) {T} (f g : jfield T) : Prop :=
  f_name f = f_name g /\ if reading then forall v j, f_dec f v j = f_dec g v j else forall v o, f_enc f v o -> f_enc g v o.
Lemma alike_refl b {T} (c : codec T) : alike b c c.
Proof. now destruct b; intros v j. Qed.
Lemma alike_string b s s' : (b = false -> s = s') -> alike b (j_string s) (j_string s').
Proof. intros H. destruct b; [now intros old j|]. rewrite H by reflexivity. apply (alike_refl false). Qed.
Lemma alike_text b {T} s s' marshal unmarshal nil : (b = false -> s = s') -> alike b (@j_text T s marshal unmarshal nil) (j_text s' marshal unmarshal nil).
Proof. intros H. destruct b; [now intros old j|]. rewrite H by reflexivity. apply (alike_refl false). Qed.
Lemma alike_slice b {T} zero (c d : codec T) : alike b c d -> alike b (j_slice zero c) (j_slice zero d).
Proof.
  intros H. destruct b.
  - intros old j. destruct j; try reflexivity. cbn [j_slice dec]. revert old. induction l as [|j l IH]; intros old; [reflexivity|].
    cbn [dec_elements]. rewrite (H (hd zero old) j), IH. reflexivity.
  - intros v j [(js & F & ->)|(-> & ->)]; [left|now right]. exists js. split; [|reflexivity]. clear -F H. induction F; constructor; auto.
Qed.
Lemma alike_ptr b {T} zero (c d : codec T) : alike b c d -> alike b (j_ptr zero c) (j_ptr zero d).
Proof.
  intros H. destruct b.
  - intros old j. cbn [j_ptr dec]. destruct j; try reflexivity; now rewrite H.
  - intros [v|] j; cbn [j_ptr enc]; [apply H|auto].
Qed.
Lemma alike_fld b {T A} name (c d : codec A) (get : T -> A) set : alike b c d -> alike_field b (fld name c get set) (fld name d get set).
Proof.
  intros H. split; [reflexivity|]. destruct b; cbn [fld f_dec f_enc].
  - intros v j. now rewrite H.
  - intros v o (j & E & ->). exists j. split; [now apply H|reflexivity].
Qed.
Lemma alike_omit b {T A} name (c d : codec (list A)) (get : T -> list A) set : alike b c d -> alike_field b (fld_omit name c get set) (fld_omit name d get set).
Proof.
  intros H. split; [reflexivity|]. destruct b; cbn [fld_omit f_dec f_enc].
  - intros v j. now rewrite H.
  - intros v o. destruct (get v); [auto|]. intros (j & E & ->). exists j. split; [now apply H|reflexivity].
Qed.
Lemma alike_members {T} (fs gs : list (jfield T)) : Forall2 (alike_field false) fs gs -> forall os, members fs os = members gs os.
Proof.
  induction 1 as [|f g fs gs [N _] _ IH]; intros [|[j|] os]; cbn [members]; try reflexivity; [now rewrite N, IH|apply IH].
Qed.
Lemma alike_find {T} P (fs gs : list (jfield T)) : Forall2 (alike_field true) fs gs ->
  match find (fun f => P (f_name f)) fs, find (fun f => P (f_name f)) gs with
  | Some f, Some g => alike_field true f g
  | None, None => True
  | _, _ => False
  end.
Proof.
  induction 1 as [|f g fs gs [N D] _ IH]; [exact I|]. cbn [find]. rewrite <- N. destruct (P (f_name f)); [now split|exact IH].
Qed.
Lemma alike_struct b {T} f f' (fs gs : list (jfield T)) : (b = true -> f = f') -> Forall2 (alike_field b) fs gs -> alike b (j_struct f fs) (j_struct f' gs).
Proof.
  intros Q H. destruct b.
  - rewrite (Q eq_refl). clear Q. intros old j. destruct j; try reflexivity. cbn [j_struct dec]. revert old. induction l as [|[k j] l IH]; intros old; [reflexivity|].
    cbn [dec_members]. destruct (unquote k) as [key| |]; cbn [rbind]; try reflexivity. unfold find_field.
    pose proof (alike_find (fun n => bytes_eqb n key) fs gs H) as A. pose proof (alike_find (fun n => f' n key) fs gs H) as B. cbv beta in A, B.
    destruct (find (fun f => bytes_eqb (f_name f) key) fs) as [x|], (find (fun f => bytes_eqb (f_name f) key) gs) as [y|]; try contradiction.
    + rewrite (proj2 A). destruct (f_dec y old j); cbn [rbind]; try reflexivity. apply IH.
    + destruct (find (fun f => f' (f_name f) key) fs) as [x|], (find (fun f => f' (f_name f) key) gs) as [y|]; try contradiction.
      * rewrite (proj2 B). destruct (f_dec y old j); cbn [rbind]; try reflexivity. apply IH.
      * apply IH.
  - intros v j (os & F & ->). exists os. rewrite <- (alike_members fs gs H). split; [|reflexivity].
    revert os F. induction H as [|x y fs gs [_ D] _ IH]; intros os F; inversion F as [|? ? ? ? F1 F2]; subst; constructor; [now apply D|now apply IH].
Qed.
Ltac release := repeat first [apply alike_refl|apply alike_string; assumption|apply alike_text; assumption|apply alike_slice|apply alike_ptr
  |apply alike_fld|apply alike_omit|apply alike_struct; [assumption|]|apply Forall2_cons|apply Forall2_nil].

Lemma alike_action b e e' : (b = true -> fold e = fold e') -> (b = false -> short e = short e') -> alike b (j_Action e) (j_Action e').
Proof. intros F S. unfold j_Action, Action_fields, j_PermissionLevel, PermissionLevel_fields. release. Qed.
Lemma alike_transaction b e e' : (b = true -> fold e = fold e') -> (b = false -> short e = short e') -> alike b (j_Transaction e) (j_Transaction e').
Proof.
  intros F S. apply alike_struct; [assumption|]. unfold Transaction_fields. apply Forall2_app.
  - assert (H : Forall2 (alike_field b) (TransactionHeader_fields e) (TransactionHeader_fields e')) by (unfold TransactionHeader_fields; release).
    induction H as [|f g fs gs [N D] _ IH]; [constructor|]. cbn [map]. constructor; [|exact IH]. split; [exact N|].
    destruct b; cbn [embedded f_dec f_enc]; [intros v j; now rewrite D|intros v o; apply D].
  - unfold j_TransactionExtension, TransactionExtension_fields, j_Action, Action_fields, j_PermissionLevel, PermissionLevel_fields. release.
Qed.
Lemma alike_abi b e e' : (b = true -> fold e = fold e') -> (b = false -> short e = short e') -> alike b (j_Abi e) (j_Abi e').
Proof.
  intros F S. unfold j_Abi, Abi_fields, j_AbiType, AbiType_fields, j_AbiStruct, AbiStruct_fields, j_AbiField, AbiField_fields, j_AbiAction, AbiAction_fields,
    j_AbiTable, AbiTable_fields, j_AbiClause, AbiClause_fields, j_AbiErrorMessage, AbiErrorMessage_fields, j_AbiExtension, AbiExtension_fields, j_AbiVariant, AbiVariant_fields.
  release.
Qed.
Lemma alike_round {T} (c d m : codec T) old v text : alike false c m -> alike true d m ->
  Marshal c v text -> (Marshal m v text -> Unmarshal m old text = Ok v) -> Unmarshal d old text = Ok v.
Proof.
  intros A B (j & E & ->) R. assert (M : Marshal m v (print j)) by (exists j; split; [now apply A|reflexivity]). specialize (R M).
  unfold Unmarshal in *. destruct (parse (print j)) as [k|]; [|exact R]. now rewrite B.
Qed.
