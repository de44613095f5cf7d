(** Proofs about the JSON forms. *)
From Verif Require Import Base GoStd BaseProofs GoStdProofs SpecJson Json.

(** ** Strings *)
Lemma in_range lo hi b : bytes_in lo hi b -> inr lo hi b = true.
Proof. unfold bytes_in, inr. intros H. apply andb_true_intro. split; lia. Qed.
Lemma cont_range b : bytes_in 128 191 b -> cont b = true.
Proof. exact (in_range 128 191 b). Qed.
(** What is printed for a character. *)
Definition shows (cs p : list byte) : Prop :=
  (forall u, get_chars 0 (p ++ u) = option_map (app cs) (get_chars 0 u))
  /\ (forall u, scan_string (p ++ u) = option_map (fun '(raw, rest) => (p ++ raw, rest)) (scan_string u)).
Definition char_shown (sh : bool) (cs : list byte) : Prop :=
  exists p, shows cs p /\ forall t, put_chars sh 0 (cs ++ t) = p ++ put_chars sh 0 t.
Lemma put_0 sh c t : put_chars sh 0 (c :: t) =
  if zb c <? 128 then put_ascii sh c ++ put_chars sh 0 t
  else match char_width (c :: t) with
       | O => str "\ufffd" ++ put_chars sh 0 t
       | S k =>
           if bytes_eqb (firstn 3 (c :: t)) [xe2; x80; xa8]
           then match t with _ :: _ :: t => str "\u2028" ++ put_chars sh 0 t | _ => [] end
           else if bytes_eqb (firstn 3 (c :: t)) [xe2; x80; xa9]
           then match t with _ :: _ :: t => str "\u2029" ++ put_chars sh 0 t | _ => [] end
           else c :: put_chars sh k t
       end.
Proof. reflexivity. Qed.
Lemma get_hex a b c d r u : get_u4 a b c d = Some r -> is_surrogate r = false ->
  get_chars 0 (x5c :: x75 :: a :: b :: c :: d :: u) = option_map (app (put_rune r)) (get_chars 0 u).
Proof.
  intros G N. cbn [get_chars]. change (is_backslash x5c) with true. change (is_u x75) with true. cbv iota. rewrite G. cbv zeta. rewrite N.
  destruct u as [|x [|y [|a' [|b' [|c' [|d' u]]]]]]; reflexivity.
Qed.
Lemma shown_1 sh a : bytes_in 0 127 a -> char_shown sh [a].
Proof.
  intros H. assert (L : (zb a <? 128) = true) by (destruct H; lia). clear H.
  exists (put_ascii sh a). split.
  - split; intros u.
    + destruct a; try discriminate L; destruct sh;
        lazymatch goal with |- get_chars 0 (?p ++ _) = _ => let q := eval vm_compute in p in change p with q; cbn [app] end;
        lazymatch goal with
        | |- get_chars 0 (x5c :: x75 :: _) = _ => erewrite get_hex; [|reflexivity|reflexivity]; reflexivity
        | |- _ => cbn [get_chars]; destruct (get_chars 0 u); reflexivity
        end.
    + destruct a; try discriminate L; destruct sh; reflexivity.
  - intros t. cbn [app]. now rewrite put_0, L.
Qed.
Lemma map_app2 a b (o : option (list byte)) : option_map (cons a) (option_map (cons b) o) = option_map (app [a; b]) o.
Proof. now destruct o. Qed.
Lemma map_app3 a b c (o : option (list byte)) : option_map (cons a) (option_map (cons b) (option_map (cons c) o)) = option_map (app [a; b; c]) o.
Proof. now destruct o. Qed.
Lemma map_app4 a b c d (o : option (list byte)) :
  option_map (cons a) (option_map (cons b) (option_map (cons c) (option_map (cons d) o))) = option_map (app [a; b; c; d]) o.
Proof. now destruct o. Qed.
Lemma high_plain a : (128 <=? zb a) = true ->
  is_backslash a = false /\ Byte.eqb a x22 = false /\ (zb a <? 32) = false /\ (zb a <? 128) = false.
Proof. intros H. destruct a; try discriminate H; repeat split. Qed.
(** A byte that is no ASCII character is kept by the scanner. *)
Lemma scan_high a s : (128 <=? zb a) = true -> scan_string (a :: s) = option_map (fun '(raw, rest) => (a :: raw, rest)) (scan_string s).
Proof. intros H. destruct (high_plain a H) as (A & B & C & D). cbn [scan_string]. now rewrite A, B, C. Qed.
Lemma get_high a s n : (128 <=? zb a) = true -> char_width (a :: s) = S n -> get_chars 0 (a :: s) = option_map (cons a) (get_chars n s).
Proof.
  intros H W. destruct (high_plain a H) as (A & B & C & D). cbn [get_chars]. now rewrite A, B, C, D, W.
Qed.

Lemma cont_high b : cont b = true -> (128 <=? zb b) = true.
Proof. unfold cont, inr. intros H. apply andb_prop in H. lia. Qed.
Lemma width_2 a b t : inr 194 223 a = true -> cont b = true -> char_width (a :: b :: t) = 2%nat.
Proof.
  intros A B. unfold char_width. rewrite A, B.
  assert ((zb a <? 128) = false) as -> by (unfold inr in A; apply andb_prop in A; lia). reflexivity.
Qed.
Lemma width_3 a b c t : inr 224 239 a = true -> inr (if zb a =? 224 then 160 else 128) (if zb a =? 237 then 159 else 191) b = true -> cont c = true ->
  char_width (a :: b :: c :: t) = 3%nat.
Proof.
  intros A B C. unfold char_width. rewrite A, B, C.
  assert ((zb a <? 128) = false) as -> by (unfold inr in A; apply andb_prop in A; lia).
  assert (inr 194 223 a = false) as -> by (unfold inr in *; apply andb_prop in A; apply andb_false_iff; lia). reflexivity.
Qed.
Lemma width_4 a b c d t : inr 240 244 a = true -> inr (if zb a =? 240 then 144 else 128) (if zb a =? 244 then 143 else 191) b = true ->
  cont c = true -> cont d = true -> char_width (a :: b :: c :: d :: t) = 4%nat.
Proof.
  intros A B C D. unfold char_width. rewrite A, B, C, D.
  assert ((zb a <? 128) = false) as -> by (unfold inr in A; apply andb_prop in A; lia).
  assert (inr 194 223 a = false) as -> by (unfold inr in *; apply andb_prop in A; apply andb_false_iff; lia).
  assert (inr 224 239 a = false) as -> by (unfold inr in *; apply andb_prop in A; apply andb_false_iff; lia). reflexivity.
Qed.
Lemma scan_raw l : Forall (fun b => (128 <=? zb b) = true) l ->
  forall u, scan_string (l ++ u) = option_map (fun '(raw, rest) => (l ++ raw, rest)) (scan_string u).
Proof.
  induction 1 as [|a l H _ IH]; intros u; cbn [app].
  - destruct (scan_string u) as [[? ?]|]; reflexivity.
  - rewrite scan_high, IH by assumption. destruct (scan_string u) as [[? ?]|]; reflexivity.
Qed.
Lemma firstn_other a t c : zb a <> 226 -> bytes_eqb (firstn 3 (a :: t)) [xe2; x80; c] = false.
Proof.
  intros H. cbn. destruct (Byte.eqb a xe2) eqn:E; [|reflexivity]. apply Byte.byte_dec_bl in E. subst a. now elim H.
Qed.
Lemma get_more k a s : get_chars (S k) (a :: s) = option_map (cons a) (get_chars k s).
Proof. reflexivity. Qed.
Lemma shown_2 sh a b : inr 194 223 a = true -> cont b = true -> char_shown sh [a; b].
Proof.
  intros A B. assert (R : 194 <= zb a <= 223) by (unfold inr in A; apply andb_prop in A; lia).
  assert (H : (128 <=? zb a) = true) by lia.
  exists [a; b]. split; [split|].
  - intros u. cbn [app]. rewrite (get_high a _ 1) by (try assumption; now apply width_2). now rewrite get_more, map_app2.
  - apply scan_raw. repeat constructor; [assumption|now apply cont_high].
  - intros t. cbn [app]. rewrite put_0, width_2, !firstn_other by (assumption || lia).
    assert ((zb a <? 128) = false) as -> by lia. reflexivity.
Qed.
Lemma shown_4 sh a b c d : inr 240 244 a = true -> inr (if zb a =? 240 then 144 else 128) (if zb a =? 244 then 143 else 191) b = true ->
  cont c = true -> cont d = true -> char_shown sh [a; b; c; d].
Proof.
  intros A B C D. assert (R : 240 <= zb a <= 244) by (unfold inr in A; apply andb_prop in A; lia).
  assert (H : (128 <=? zb a) = true) by lia.
  assert (HB : (128 <=? zb b) = true).
  { unfold inr in B. apply andb_prop in B. destruct B as [B _]. destruct (zb a =? 240); lia. }
  exists [a; b; c; d]. split; [split|].
  - intros u. cbn [app]. rewrite (get_high a _ 3) by (try assumption; now apply width_4). now rewrite !get_more, map_app4.
  - apply scan_raw. repeat constructor; try assumption; now apply cont_high.
  - intros t. cbn [app]. rewrite put_0, width_4, !firstn_other by (assumption || lia).
    assert ((zb a <? 128) = false) as -> by lia. reflexivity.
Qed.
Lemma shown_3 sh a b c : inr 224 239 a = true -> inr (if zb a =? 224 then 160 else 128) (if zb a =? 237 then 159 else 191) b = true ->
  cont c = true -> char_shown sh [a; b; c].
Proof.
  intros A B C. assert (R : 224 <= zb a <= 239) by (unfold inr in A; apply andb_prop in A; lia).
  assert (H : (128 <=? zb a) = true) by lia.
  assert (HB : (128 <=? zb b) = true).
  { unfold inr in B. apply andb_prop in B. destruct B as [B _]. destruct (zb a =? 224); lia. }
  assert (P : forall t, put_chars sh 0 ([a; b; c] ++ t) =
     if bytes_eqb [a; b; c] [xe2; x80; xa8] then str "\u2028" ++ put_chars sh 0 t
     else if bytes_eqb [a; b; c] [xe2; x80; xa9] then str "\u2029" ++ put_chars sh 0 t
     else [a; b; c] ++ put_chars sh 0 t).
  { intros t. cbn [app]. rewrite put_0, width_3 by assumption.
    assert ((zb a <? 128) = false) as -> by lia. reflexivity. }
  destruct (bytes_eqb [a; b; c] [xe2; x80; xa8]) eqn:E1.
  { apply bytes_eqb_eq in E1. injection E1 as -> -> ->. eexists (str _). split; [|exact P]. split; intros u.
    - lazymatch goal with |- get_chars 0 (?p ++ _) = _ => let q := eval vm_compute in p in change p with q; cbn [app] end. erewrite get_hex; [|reflexivity|reflexivity]. reflexivity.
    - reflexivity. }
  destruct (bytes_eqb [a; b; c] [xe2; x80; xa9]) eqn:E2.
  { apply bytes_eqb_eq in E2. injection E2 as -> -> ->. eexists (str _). split; [|exact P]. split; intros u.
    - lazymatch goal with |- get_chars 0 (?p ++ _) = _ => let q := eval vm_compute in p in change p with q; cbn [app] end. erewrite get_hex; [|reflexivity|reflexivity]. reflexivity.
    - reflexivity. }
  exists [a; b; c]. split; [split|exact P].
  - intros u. cbn [app]. rewrite (get_high a _ 2) by (try assumption; now apply width_3). now rewrite !get_more, map_app3.
  - apply scan_raw. repeat constructor; try assumption; now apply cont_high.
Qed.
Lemma char_ok sh cs : utf8_char cs -> char_shown sh cs.
Proof.
  destruct 1 as [a A|a b A B|a b c A B C|a b c A B C|a b c A B C|a b c A B C|a b c d A B C D|a b c d A B C D|a b c d A B C D];
    [now apply shown_1|apply shown_2|apply shown_3..|apply shown_4|apply shown_4|apply shown_4];
    try (apply cont_range; assumption); unfold bytes_in in *.
  all: try (unfold inr; apply andb_true_intro; split; lia).
  all: repeat match goal with |- context [?x =? ?y] => first [replace (x =? y) with true by lia|replace (x =? y) with false by lia] end;
    unfold inr; apply andb_true_intro; split; lia.
Qed.
(** What is between quotes in a JSON text. *)
Definition raw_ok (raw : list byte) : Prop := forall u, scan_string (raw ++ x22 :: u) = Some (raw, u).
Lemma string_ok sh s : utf8 s -> get_chars 0 (put_chars sh 0 s) = Some s /\ raw_ok (put_chars sh 0 s).
Proof.
  intros (chars & F & ->). induction F as [|cs chars H _ [IH1 IH2]].
  - split; [reflexivity|intros u; reflexivity].
  - destruct (char_ok sh cs H) as (p & [G S] & P). cbn [concat]. rewrite P. split.
    + rewrite G, IH1. reflexivity.
    + intros u. rewrite <- app_assoc, S, IH2. reflexivity.
Qed.
Lemma ascii_utf8 s : Forall (fun b => zb b < 128) s -> utf8 s.
Proof.
  induction 1 as [|a s H _ (chars & F & ->)]; [now exists []|].
  exists ([a] :: chars). split; [|reflexivity]. constructor; [|assumption]. apply u_1. pose proof (zb_range a). unfold bytes_in. lia.
Qed.

(** ** Printing and parsing *)
Inductive good : json -> Prop :=
| g_null : good JNull
| g_bool b : good (JBool b)
| g_num lit : is_number lit = true -> forallb number_char lit = true -> good (JNum lit)
| g_str raw : raw_ok raw -> good (JStr raw)
| g_arr l : Forall good l -> good (JArr l)
| g_obj l : Forall (fun kj => raw_ok (fst kj) /\ good (snd kj)) l -> good (JObj l).
Definition no_number (rest : list byte) : Prop := match rest with [] => True | c :: _ => number_char c = false end.
Lemma span_all p l rest : forallb p l = true -> match rest with [] => True | c :: _ => p c = false end -> span p (l ++ rest) = (l, rest).
Proof.
  induction l as [|c l IH]; cbn [forallb app]; intros H R.
  - destruct rest as [|c t]; [reflexivity|]. cbn [span]. now rewrite R.
  - apply andb_prop in H as [A B]. cbn [span]. now rewrite A, IH.
Qed.
Lemma number_char_other c : number_char c = true ->
  Byte.eqb c x22 = false /\ Byte.eqb c x7b = false /\ Byte.eqb c x5b = false /\ Byte.eqb c x6e = false /\ Byte.eqb c x74 = false /\ Byte.eqb c x66 = false
  /\ is_space c = false /\ Byte.eqb c x5d = false.
Proof. intros H. destruct c; try discriminate H; repeat split. Qed.
(** A printed value begins with a character that is neither white space nor a closing bracket. *)
Lemma print_head j : good j -> exists c t, print j = c :: t /\ is_space c = false /\ Byte.eqb c x5d = false.
Proof.
  destruct 1 as [| b | lit N C | raw R | l F | l F].
  - do 2 eexists. repeat split.
  - destruct b; do 2 eexists; repeat split.
  - destruct lit as [|c t]; [discriminate N|]. cbn [forallb] in C. apply andb_prop in C as [C _].
    exists c, t. destruct (number_char_other c C) as (_ & _ & _ & _ & _ & _ & S & E). auto.
  - do 2 eexists. repeat split.
  - destruct l; do 2 eexists; repeat split.
  - destruct l as [|[k j] l]; do 2 eexists; repeat split.
Qed.
Lemma after_hit c t : is_space c = false -> after c (c :: t) = Some t.
Proof. intros S. unfold after. cbn [skip_space]. rewrite S. now rewrite (Byte.byte_dec_lb (eq_refl c)). Qed.
Lemma after_miss c x t : is_space x = false -> Byte.eqb x c = false -> after c (x :: t) = None.
Proof. intros S E. unfold after. cbn [skip_space]. now rewrite S, E. Qed.
Definition parses (j : json) : Prop :=
  forall fuel rest, (2 * length (print j) <= fuel)%nat -> no_number rest -> parse_value fuel (print j ++ rest) = Some (j, rest).
Definition tail_elements (l : list json) : list byte := flat_map (fun j => x2c :: print j) l.
Definition tail_members (l : list (list byte * json)) : list byte := flat_map (fun '(k, j) => x2c :: quoted k ++ x3a :: print j) l.
Lemma elements_ok l : forall j fuel rest, parses j -> Forall parses l ->
  (2 * length (print j ++ tail_elements l ++ [x5d]) <= fuel)%nat ->
  parse_elements fuel (print j ++ tail_elements l ++ x5d :: rest) = Some (j :: l, rest).
Proof.
  induction l as [|j' l IH]; intros j fuel rest Pj Pl L.
  - destruct fuel as [|fuel]; [rewrite app_length in L; cbn [length app tail_elements flat_map] in L; lia|].
    cbn [parse_elements tail_elements flat_map app]. rewrite Pj; [|rewrite app_length in L; cbn [length app tail_elements flat_map] in L; lia|reflexivity].
    rewrite after_miss by reflexivity. now rewrite after_hit.
  - apply Forall_cons_iff in Pl as [Pj' Pl].
    rewrite !app_length in L. cbn [length tail_elements flat_map app] in L. fold (tail_elements l) in L. rewrite app_length in L.
    destruct fuel as [|fuel]; [lia|].
    cbn [parse_elements tail_elements flat_map app]. fold (tail_elements l). rewrite Pj; [|lia|reflexivity].
    rewrite after_hit by reflexivity. rewrite <- app_assoc. rewrite (IH j' fuel rest Pj' Pl); [reflexivity|].
    rewrite !app_length. cbn [length]. lia.
Qed.
Lemma members_ok l : forall k j fuel rest, raw_ok k -> parses j -> Forall (fun kj => raw_ok (fst kj) /\ parses (snd kj)) l ->
  (2 * length (quoted k ++ x3a :: print j ++ tail_members l ++ [x7d]) <= fuel)%nat ->
  parse_members fuel (quoted k ++ x3a :: print j ++ tail_members l ++ x7d :: rest) = Some ((k, j) :: l, rest).
Proof.
  induction l as [|[k' j'] l IH]; intros k j fuel rest Rk Pj Pl L.
  - unfold quoted in *. cbn [app length] in L. rewrite !app_length in L. cbn [length] in L. rewrite !app_length in L. cbn [length] in L.
    destruct fuel as [|fuel]; [lia|].
    cbn [parse_members app]. rewrite after_hit by reflexivity. rewrite <- app_assoc. cbn [app]. rewrite Rk.
    rewrite after_hit by reflexivity. cbn [tail_members flat_map app].
    rewrite Pj; [|lia|reflexivity].
    rewrite after_miss by reflexivity. now rewrite after_hit.
  - apply Forall_cons_iff in Pl as [[Rk' Pj'] Pl]. cbn [fst snd] in Rk', Pj'.
    cbn [tail_members flat_map] in *. fold (tail_members l) in *.
    unfold quoted in L. cbn [app length] in L. rewrite !app_length in L. cbn [length] in L. rewrite !app_length in L. cbn [length] in L.
    rewrite !app_length in L. cbn [length] in L.
    destruct fuel as [|fuel]; [lia|].
    cbn [parse_members]. unfold quoted at 1. cbn [app]. rewrite after_hit by reflexivity. rewrite <- app_assoc. cbn [app]. rewrite Rk.
    rewrite after_hit by reflexivity.
    rewrite Pj; [|lia|reflexivity].
    rewrite after_hit by reflexivity. rewrite <- !app_assoc. cbn [app]. rewrite <- ?app_assoc. rewrite (IH k' j' fuel rest Rk' Pj' Pl); [reflexivity|].
    unfold quoted. cbn [app length]. rewrite ?app_length. cbn [length]. rewrite ?app_length. cbn [length]. rewrite ?app_length. cbn [length]. lia.
Qed.
Lemma expect_hit w j rest : expect w j (w ++ rest) = Some (j, rest).
Proof.
  unfold expect. rewrite firstn_app, firstn_all, Nat.sub_diag, firstn_O, app_nil_r, bytes_eqb_refl.
  now rewrite skipn_app, skipn_all, Nat.sub_diag.
Qed.
Lemma good_parses : forall j, good j -> parses j.
Proof.
  fix IH 1. intros j G. destruct j as [| b | lit | raw | l | l].
  - intros [|fuel] rest L _; [cbn in L; lia|]. exact (expect_hit (str "null") JNull rest).
  - intros [|fuel] rest L _; [destruct b; cbn in L; lia|]. destruct b; [exact (expect_hit (str "true") _ rest)|exact (expect_hit (str "false") _ rest)].
  - inversion G as [| | ? N C | | | ]; subst. intros fuel rest L R. cbn [print] in *.
    destruct lit as [|c t]; [discriminate N|]. destruct fuel as [|fuel]; [cbn [length] in L; lia|].
    pose proof C as C0. cbn [forallb] in C. apply andb_prop in C as [C _]. destruct (number_char_other c C) as (A1 & A2 & A3 & A4 & A5 & A6 & S & _).
    cbn [parse_value app skip_space]. rewrite S, A1, A2, A3, A4, A5, A6.
    change (c :: t ++ rest) with ((c :: t) ++ rest). rewrite (span_all _ _ _ C0 R). now rewrite N.
  - inversion G as [| | | ? R | | ]; subst. intros [|fuel] rest L _; [cbn [print quoted length] in L; lia|].
    cbn [print]. unfold quoted. cbn [app parse_value skip_space]. rewrite <- app_assoc. cbn [app].
    change (is_space x22) with false. change (Byte.eqb x22 x22) with true. cbv iota. now rewrite R.
  - assert (F : Forall good l) by (inversion G; subst; assumption). clear G.
    assert (P : Forall parses l).
    { induction l as [|j l IHl]; [constructor|]. apply Forall_cons_iff in F as [A B]. constructor; [now apply IH|now apply IHl]. }
    clear IH. intros [|fuel] rest L _; [destruct l; cbn [print] in L; rewrite ?app_length in L; cbn in L; lia|].
    destruct l as [|j l]; [reflexivity|]. apply Forall_cons_iff in F as [Gj _]. apply Forall_cons_iff in P as [Pj Pl].
    cbn [print] in *. fold (tail_elements l) in *. change (str "[") with [x5b] in *. change (str "]") with [x5d] in *.
    cbn [app parse_value skip_space length] in *.
    change (is_space x5b) with false. change (Byte.eqb x5b x22) with false. change (Byte.eqb x5b x7b) with false. change (Byte.eqb x5b x5b) with true. cbv iota.
    destruct (print_head j Gj) as (c & t & E & S & N). rewrite <- !app_assoc. cbn [app].
    assert (after x5d (print j ++ tail_elements l ++ x5d :: rest) = None) as -> by (rewrite E; now apply after_miss).
    rewrite elements_ok; [reflexivity|assumption..|lia].
  - assert (F : Forall (fun kj => raw_ok (fst kj) /\ good (snd kj)) l) by (inversion G; subst; assumption). clear G.
    assert (P : Forall (fun kj => raw_ok (fst kj) /\ parses (snd kj)) l).
    { induction l as [|[k j] l IHl]; [constructor|]. apply Forall_cons_iff in F as [[A A'] B]. constructor; [split; [exact A|now apply IH]|now apply IHl]. }
    clear IH F. intros [|fuel] rest L _; [destruct l as [|[k j] l]; cbn [print] in L; rewrite ?app_length in L; cbn in L; lia|].
    destruct l as [|[k j] l]; [reflexivity|]. apply Forall_cons_iff in P as [[Rk Pj] Pl]. cbn [fst snd] in *.
    cbn [print] in *. fold (tail_members l) in *. change (str "{") with [x7b] in *. change (str "}") with [x7d] in *.
    cbn [app parse_value skip_space length] in *.
    change (is_space x7b) with false. change (Byte.eqb x7b x22) with false. change (Byte.eqb x7b x7b) with true. cbv iota.
    rewrite <- !app_assoc. cbn [app]. rewrite <- !app_assoc. cbn [app].
    assert (after x7d (quoted k ++ x3a :: print j ++ tail_members l ++ x7d :: rest) = None) as -> by (now apply after_miss).
    rewrite members_ok; [reflexivity|assumption..|lia].
Qed.
Lemma parse_print j : good j -> nest j <= 10000 -> parse (print j) = Some j.
Proof.
  intros G L. unfold parse. assert (E : print j = print j ++ []) by now rewrite app_nil_r. rewrite E at 2.
  rewrite (good_parses j G); [|lia|exact I]. cbn [skip_space]. now rewrite (proj2 (Z.leb_le _ _) L).
Qed.
Lemma parse_printed j k : good j -> parse (print j) = Some k -> k = j.
Proof.
  intros G. unfold parse. assert (E : print j = print j ++ []) by now rewrite app_nil_r. rewrite E at 2.
  rewrite (good_parses j G); [|lia|exact I]. cbn [skip_space]. destruct (nest j <=? 10000); congruence.
Qed.
