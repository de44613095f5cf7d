(** C71: the JSON text of a string can stand inside HTML and JavaScript. *)
From Verif Require Import Base GoStd BaseProofs GoStdProofs SpecJson Json JsonProofs PropJson.

Lemma behind {A} (x : A) : forall p q a b, ~ In x p -> p ++ q = a ++ x :: b -> exists a', q = a' ++ x :: b.
Proof.
  induction p as [|y p IH]; intros q a b N H; [now exists a|]. destruct a as [|z a]; cbn [app] in H.
  - assert (y = x) by congruence. subst. elim N. now left.
  - apply (IH q a b); [intros I; apply N; now right|congruence].
Qed.
Definition tame (c : byte) : Prop := 32 <= zb c /\ c <> x3c /\ c <> x3e /\ c <> x26.
Lemma tame_list p : forallb (fun c => (32 <=? zb c) && negb (Byte.eqb c x3c || Byte.eqb c x3e || Byte.eqb c x26 || Byte.eqb c xe2)) p = true -> Forall tame p /\ ~ In xe2 p.
Proof.
  intros H. rewrite forallb_forall in H. split.
  - apply Forall_forall. intros c I. apply H in I. unfold tame. destruct c; try discriminate I; vm_compute; repeat split; discriminate.
  - intros I. apply H in I. discriminate I.
Qed.
Lemma tame_ascii sh c : (zb c <? 128) = true -> Forall tame (put_ascii sh c) /\ ~ In xe2 (put_ascii sh c).
Proof.
  intros L. apply tame_list. destruct c; try discriminate L; destruct sh; reflexivity.
Qed.
Lemma high_tame c : (zb c <? 128) = false -> tame c.
Proof. intros L. destruct c; try discriminate L; unfold tame; vm_compute; repeat split; discriminate. Qed.
Lemma cont_high c : cont c = true -> (zb c <? 128) = false /\ c <> xe2.
Proof. intros L. destruct c; try discriminate L; split; (reflexivity || discriminate). Qed.
Lemma inr_high lo hi c : 128 <= lo -> hi <= 191 -> inr lo hi c = true -> cont c = true.
Proof. unfold cont, inr. intros A B H. apply andb_prop in H as [H1 H2]. apply andb_true_intro. split; lia. Qed.
(** The first [k] bytes continue a character. *)
Fixpoint conts (k : nat) (s : list byte) : Prop :=
  match k with O => True | S k => match s with c :: s => cont c = true /\ conts k s | [] => False end end.
Lemma width_conts c t k : (zb c <? 128) = false -> char_width (c :: t) = S k -> conts k t /\ (c = xe2 -> k = 2%nat).
Proof.
  unfold char_width. intros ->. destruct (inr 194 223 c) eqn:A.
  { destruct t as [|b1 t]; [discriminate|]. destruct (cont b1) eqn:B; [|discriminate]. intros [= <-]. split; [now split|]. intros ->. discriminate A. }
  destruct (inr 224 239 c).
  { destruct t as [|b1 [|b2 t]]; try discriminate. destruct (inr _ _ b1) eqn:B; [|discriminate]. destruct (cont b2) eqn:D; [|discriminate]. cbn [andb]. intros [= <-].
    split; [|reflexivity]. cbn [conts]. split; [|now split]. eapply inr_high; [| |exact B]; [destruct (zb c =? 224); lia|destruct (zb c =? 237); lia]. }
  destruct (inr 240 244 c) eqn:A'; [|discriminate].
  destruct t as [|b1 [|b2 [|b3 t]]]; try discriminate. destruct (inr _ _ b1) eqn:B; [|discriminate]. destruct (cont b2) eqn:D; [|discriminate].
  destruct (cont b3) eqn:F; [|discriminate]. cbn [andb]. intros [= <-].
  split; [|intros ->; discriminate A']. cbn [conts]. split; [|now split]. eapply inr_high; [| |exact B]; [destruct (zb c =? 240); lia|destruct (zb c =? 244); lia].
Qed.
Lemma put_tame sh : forall n s k, (length s <= n)%nat -> conts k s ->
  Forall tame (put_chars sh k s)
  /\ forall a b d, put_chars sh k s = a ++ xe2 :: x80 :: d :: b -> d <> xa8 /\ d <> xa9.
Proof.
  assert (S0 : forall p q : list byte, Forall tame p /\ ~ In xe2 p ->
    Forall tame q /\ (forall a b d, q = a ++ xe2 :: x80 :: d :: b -> d <> xa8 /\ d <> xa9) ->
    Forall tame (p ++ q) /\ (forall a b d, p ++ q = a ++ xe2 :: x80 :: d :: b -> d <> xa8 /\ d <> xa9)).
  { intros p q [P N] [Q F]. split; [now apply Forall_app|]. intros a b d H. apply behind in H as (a' & H); [|exact N]. exact (F _ _ _ H). }
  assert (H0 : forall p, In p [x5c :: str "ufffd"; x5c :: str "u2028"; x5c :: str "u2029"] -> Forall tame p /\ ~ In xe2 p).
  { intros p [<-|[<-|[<-|[]]]]; now apply tame_list. }
  induction n as [|n IH]; intros s k L C.
  { destruct s; [|cbn in L; lia]. cbn [put_chars]. split; [constructor|]. now intros [|? ?] ? ? ?. }
  destruct s as [|c t]; [cbn [put_chars]; split; [constructor|]; now intros [|? ?] ? ? ?|]. cbn [length] in L.
  destruct k as [|k].
  2: { destruct C as [C C']. apply cont_high in C as [Hc Ne]. cbn [put_chars]. apply (S0 [c]); [|apply IH; [lia|exact C']].
    split; [now repeat constructor; apply high_tame|]. intros [->|[]]. congruence. }
  rewrite put_0. destruct (zb c <? 128) eqn:Hc; [apply S0; [now apply tame_ascii|apply IH; [lia|exact I]]|].
  destruct (char_width (c :: t)) as [|k] eqn:W; [apply S0; [apply H0; now left|apply IH; [lia|exact I]]|].
  apply width_conts in W as [K W]; [|exact Hc].
  destruct (bytes_eqb (firstn 3 (c :: t)) [xe2; x80; xa8]) eqn:A8.
  { destruct t as [|? [|? t]]; [split; [constructor|now intros [|? ?] ? ? ?]..|]. apply S0; [apply H0; cbn; tauto|]. apply IH; [cbn in L; lia|exact I]. }
  destruct (bytes_eqb (firstn 3 (c :: t)) [xe2; x80; xa9]) eqn:A9.
  { destruct t as [|? [|? t]]; [split; [constructor|now intros [|? ?] ? ? ?]..|]. apply S0; [apply H0; cbn; tauto|]. apply IH; [cbn in L; lia|exact I]. }
  destruct (IH t k) as [T F]; [lia|exact K|]. split; [constructor; [now apply high_tame|exact T]|].
  intros [|y a] b d H; cbn [app] in H.
  - assert (c = xe2) by congruence. subst c. specialize (W eq_refl). subst k. destruct t as [|t1 [|t2 t]]; [now elim K|now elim (proj2 K)|].
    cbn [put_chars] in H. assert (t1 = x80) by congruence. assert (t2 = d) by congruence. subst. split; intros ->; [discriminate A8|discriminate A9].
  - apply (F a b d). congruence.
Qed.
(** Whatever the string, its text has no control character, none of the characters that
    mean something in HTML, and none of the two line separators JavaScript does not
    allow in a string. *)
Theorem C71_html : forall sh s text, Marshal (j_string sh) s text ->
  (forall c, In c text -> 32 <= zb c /\ ~ In c (str "<>&"))
  /\ (forall a b, text <> a ++ [xe2; x80; xa8] ++ b) /\ (forall a b, text <> a ++ [xe2; x80; xa9] ++ b).
Proof.
  intros sh s text (j & J & ->). cbn [j_string enc] in J. subst j. unfold quote. cbn [print]. unfold quoted.
  destruct (put_tame sh (length s) s 0 (le_n _) I) as [T F].
  assert (Q : Forall tame (x22 :: put_chars sh 0 s ++ [x22])).
  { assert (W : tame x22) by (unfold tame; vm_compute; repeat split; discriminate). constructor; [exact W|]. apply Forall_app. split; [exact T|now constructor]. }
  assert (G : forall a b d, x22 :: put_chars sh 0 s ++ [x22] = a ++ xe2 :: x80 :: d :: b -> d = xa8 \/ d = xa9 -> False).
  { intros a b d H D. destruct a as [|y a]; cbn [app] in H; [discriminate H|]. assert (H' : put_chars sh 0 s ++ [x22] = a ++ xe2 :: x80 :: d :: b) by congruence.
    destruct b as [|b0 b] using rev_ind.
    - replace (a ++ [xe2; x80; d]) with ((a ++ [xe2; x80]) ++ [d]) in H' by (now rewrite <- app_assoc). apply app_inj_tail in H' as [_ H']. destruct D as [->| ->]; discriminate H'.
    - replace (a ++ xe2 :: x80 :: d :: b ++ [b0]) with ((a ++ xe2 :: x80 :: d :: b) ++ [b0]) in H' by (now rewrite <- app_assoc). apply app_inj_tail in H' as [H' _].
      destruct (F _ _ _ H'). destruct D; contradiction. }
  rewrite Forall_forall in Q. split; [|split; intros a b H; exact (G a b _ H ltac:(auto))].
  intros c I. destruct (Q c I) as (A & B & C & D). split; [exact A|]. change (~ In c [x3c; x3e; x26]). intros [<-|[<-|[<-|[]]]]; congruence.
Qed.
Print Assumptions C71_html.
Example C71_html_ex : exists text, Marshal (j_string true) (str "a<b>&" ++ [xe2; x80; xa8; xe2; x80; xaa; x01; xff; x22]) text
  /\ text = [x22] ++ str "a" ++ x5c :: str "u003cb" ++ x5c :: str "u003e" ++ x5c :: str "u0026" ++ x5c :: str "u2028" ++ [xe2; x80; xaa] ++ x5c :: str "u0001" ++ x5c :: str "ufffd" ++ [x5c; x22; x22].
Proof. eexists. split; [eexists; split; reflexivity|]. vm_compute. reflexivity. Qed.
