(** Proofs about RIPEMD-160. *)
From Verif Require Import Base BaseProofs Ripemd SpecRipemd.
Ltac Zify.zify_post_hook ::= Z.div_mod_to_equations.

Definition w32 (z : Z) : Prop := 0 <= z < 4294967296.
Definition ok5 (v : five) : Prop := w32 (w0 v) /\ w32 (w1 v) /\ w32 (w2 v) /\ w32 (w3 v) /\ w32 (w4 v).
Definition tov (v : five) : vars := (w0 v, w1 v, w2 v, w3 v, w4 v).

(** ** Word operations *)
Lemma bits_w32 z n : w32 z -> 32 <= n -> Z.testbit z n = false.
Proof. intros H Hn. apply (testbit_above z 32); [exact H|lia]. Qed.
Lemma ones32 n : 0 <= n -> Z.testbit 4294967295 n = (n <? 32).
Proof. intros H. change 4294967295 with (Z.ones 32). destruct (Z.ltb_spec n 32); [apply Z.ones_spec_low; lia|apply Z.ones_spec_high; lia]. Qed.
Lemma not32_neg z : w32 z -> not32 z = neg z.
Proof.
  intros H. unfold not32, neg. change (2 ^ 32 - 1) with 4294967295.
  assert (S : Z.ldiff z 4294967295 = 0).
  { apply Z.bits_inj'. intros n Hn. rewrite Z.ldiff_spec, Z.bits_0, ones32 by lia.
    destruct (Z.ltb_spec n 32); [apply andb_false_r|]. rewrite (bits_w32 z n H) by lia. reflexivity. }
  rewrite Z.sub_nocarry_ldiff by exact S. apply Z.bits_inj'. intros n Hn. rewrite Z.lxor_spec, Z.ldiff_spec, ones32 by lia.
  destruct (Z.ltb_spec n 32); [destruct (Z.testbit z n); reflexivity|]. rewrite (bits_w32 z n H) by lia. reflexivity.
Qed.
Lemma ldiff_neg y z : w32 y -> w32 z -> Z.ldiff y z = Z.land y (neg z).
Proof.
  intros Hy Hz. rewrite <- not32_neg by exact Hz. unfold not32. apply Z.bits_inj'. intros n Hn.
  rewrite Z.ldiff_spec, Z.land_spec, Z.lxor_spec, ones32 by lia. destruct (Z.ltb_spec n 32).
  - destruct (Z.testbit y n), (Z.testbit z n); reflexivity.
  - rewrite (bits_w32 y n Hy), (bits_w32 z n Hz) by lia. reflexivity.
Qed.
Lemma rotate_rol x k : w32 x -> 0 < k < 32 -> RotateLeft32 x k = rol k x.
Proof.
  intros H Hk. unfold RotateLeft32, rol, u32. rewrite Z.shiftl_mul_pow2, Z.shiftr_div_pow2 by lia.
  change 4294967296 with (2 ^ 32) in *. unfold w32 in H. change 4294967296 with (2 ^ 32) in H.
  set (a := 2 ^ k). assert (Ha : 0 < a) by (apply Z.pow_pos_nonneg; lia).
  assert (P : 2 ^ 32 = 2 ^ (32 - k) * a) by (unfold a; rewrite <- Z.pow_add_r by lia; f_equal; lia).
  set (b := 2 ^ (32 - k)) in *. assert (Hb : 0 < b) by (apply Z.pow_pos_nonneg; lia).
  rewrite P. rewrite Zmult_mod_distr_r. unfold a. apply lor_hi; [lia|]. fold a. split; [apply Z.div_pos; lia|].
  apply Z.div_lt_upper_bound; [lia|]. rewrite <- P. lia.
Qed.
Lemma rol_w32 s x : w32 x -> 0 < s < 32 -> w32 (rol s x).
Proof.
  intros H Hs. unfold w32 in *. unfold rol. change 4294967296 with (2 ^ 32) in *.
  set (a := 2 ^ s). assert (Ha : 0 < a) by (apply Z.pow_pos_nonneg; lia).
  assert (P : 2 ^ 32 = 2 ^ (32 - s) * a) by (unfold a; rewrite <- Z.pow_add_r by lia; f_equal; lia).
  set (b := 2 ^ (32 - s)) in *. assert (Hb : 0 < b) by (apply Z.pow_pos_nonneg; lia).
  rewrite P at 2 3. rewrite Zmult_mod_distr_r. pose proof (Z.mod_pos_bound x b Hb).
  assert (0 <= x / b < a) by (split; [apply Z.div_pos; lia|apply Z.div_lt_upper_bound; [lia|]; lia]). nia.
Qed.
Lemma add32_w32 a b : w32 (add32 a b).
Proof. unfold add32, w32. apply u32_range. Qed.

(** ** Tables *)
Definition table_ok (i : nat) : bool :=
  let q := (i / 16)%nat in let k := (i mod 16)%nat in
  (Z.to_nat (tab n_l i) =? r q k)%nat && (r q k <? 16)%nat && (tab r_l i =? shift q (r q k))
  && (Z.to_nat (tab n_r i) =? r' q k)%nat && (r' q k <? 16)%nat && (tab r_r i =? shift q (r' q k))
  && (0 <? shift q (r q k)) && (shift q (r q k) <? 32) && (0 <? shift q (r' q k)) && (shift q (r' q k) <? 32).
Lemma tables : forallb table_ok (seq 0 80) = true.
Proof. vm_compute. reflexivity. Qed.
Lemma table_at i : (i < 80)%nat -> 
  let q := (i / 16)%nat in let k := (i mod 16)%nat in
  Z.to_nat (tab n_l i) = r q k /\ (r q k < 16)%nat /\ tab r_l i = shift q (r q k)
  /\ Z.to_nat (tab n_r i) = r' q k /\ (r' q k < 16)%nat /\ tab r_r i = shift q (r' q k)
  /\ 0 < shift q (r q k) < 32 /\ 0 < shift q (r' q k) < 32.
Proof.
  intros H q k. pose proof (proj1 (forallb_forall table_ok (seq 0 80)) tables i) as T.
  assert (I : In i (seq 0 80)) by (apply in_seq; lia). specialize (T I). unfold table_ok in T. fold q k in T.
  repeat match type of T with (_ && _) = true => apply andb_true_iff in T; let A := fresh "A" in destruct T as [T A] end.
  repeat match goal with
  | A : (_ =? _)%nat = true |- _ => apply Nat.eqb_eq in A
  | A : (_ =? _) = true |- _ => apply Z.eqb_eq in A
  | A : (_ <? _)%nat = true |- _ => apply Nat.ltb_lt in A
  | A : (_ <? _) = true |- _ => apply Z.ltb_lt in A
  end. repeat split; assumption.
Qed.

(** ** One step *)
Lemma plus4 a b c d : add32 (add32 (add32 a b) c) d = plus [a; b; c; d].
Proof. unfold add32, u32, plus. cbn [fold_right]. change (2 ^ 32) with 4294967296. lia. Qed.
Lemma plus4_0 a b c : add32 (add32 a b) c = plus [a; b; c; 0].
Proof. unfold add32, u32, plus. cbn [fold_right]. change (2 ^ 32) with 4294967296. lia. Qed.
Lemma plus_w32 l : w32 (plus l).
Proof. unfold plus, w32. change (2 ^ 32) with 4294967296. apply Z.mod_pos_bound. lia. Qed.
Lemma line_step v alpha s fn X K : ok5 v -> 0 < s < 32 -> alpha = plus [w0 v; fn (w1 v) (w2 v) (w3 v); X; K] ->
  tov (line v alpha s) = step fn X K s (tov v) /\ ok5 (line v alpha s).
Proof.
  intros (H0 & H1 & H2 & H3 & H4) Hs ->. unfold line, tov, step, ok5. cbn [w0 w1 w2 w3 w4].
  rewrite !rotate_rol by (auto using plus_w32; lia). split.
  - repeat f_equal. unfold add32, u32, plus at 2. cbn [fold_right]. rewrite Z.add_0_r. reflexivity.
  - split; [exact H4|]. split; [apply add32_w32|]. split; [exact H1|]. split; [apply rol_w32; auto; lia|exact H3].
Qed.

Definition lefts : list ((nat -> Z) -> nat -> five -> five) := [left1; left2; left3; left4; left5].
Definition rights : list ((nat -> Z) -> nat -> five -> five) := [right1; right2; right3; right4; right5].

Lemma left_step x X i v : (i < 80)%nat -> ok5 v -> (forall w, (w < 16)%nat -> x w = X w) ->
  let q := (i / 16)%nat in let k := (i mod 16)%nat in
  let v' := nth q lefts left1 x i v in
  tov v' = step (f q) (X (r q k)) (K q) (shift q (r q k)) (tov v) /\ ok5 v'.
Proof.
  intros Hi Hv HX q k v'. destruct (table_at i Hi) as (T1 & T2 & T3 & _ & _ & _ & T4 & _). fold q k in T1, T2, T3, T4.
  assert (EX : xw x (tab n_l i) = X (r q k)) by (unfold xw; rewrite T1; now apply HX).
  assert (Hq : (q < 5)%nat) by (apply Nat.div_lt_upper_bound; lia).
  pose proof Hv as (H0 & H1 & H2 & H3 & H4).
  unfold v'. destruct q as [|[|[|[|[|q]]]]]; [..|lia]; cbn [nth lefts].
  all: unfold left1, left2, left3, left4, left5; rewrite EX, T3; apply line_step; auto; cbn [f K nth];
    rewrite ?not32_neg, ?ldiff_neg by assumption; first [apply plus4|apply plus4_0].
Qed.
Lemma right_step x X i v : (i < 80)%nat -> ok5 v -> (forall w, (w < 16)%nat -> x w = X w) ->
  let q := (i / 16)%nat in let k := (i mod 16)%nat in
  let v' := nth q rights right1 x i v in
  tov v' = step (f (4 - q)) (X (r' q k)) (K' q) (shift q (r' q k)) (tov v) /\ ok5 v'.
Proof.
  intros Hi Hv HX q k v'. destruct (table_at i Hi) as (_ & _ & _ & T1 & T2 & T3 & _ & T4). fold q k in T1, T2, T3, T4.
  assert (EX : xw x (tab n_r i) = X (r' q k)) by (unfold xw; rewrite T1; now apply HX).
  assert (Hq : (q < 5)%nat) by (apply Nat.div_lt_upper_bound; lia).
  pose proof Hv as (H0 & H1 & H2 & H3 & H4).
  unfold v'. destruct q as [|[|[|[|[|q]]]]]; [..|lia]; cbn [nth rights].
  all: unfold right1, right2, right3, right4, right5; rewrite EX, T3; apply line_step; auto; cbn [f K' nth Nat.sub];
    rewrite ?not32_neg, ?ldiff_neg by assumption; first [apply plus4|apply plus4_0].
Qed.

(** The five loops are one fold over the steps 0..79. *)
Lemma loops_fold x v :
  loop 64 (left5 x) (right5 x) (loop 48 (left4 x) (right4 x) (loop 32 (left3 x) (right3 x)
    (loop 16 (left2 x) (right2 x) (loop 0 (left1 x) (right1 x) v))))
  = fold_left (fun v i => (nth (i / 16) lefts left1 x i (fst v), nth (i / 16) rights right1 x i (snd v))) (seq 0 80) v.
Proof.
  assert (L : forall q v, (q < 5)%nat -> loop (16 * q) (nth q lefts left1 x) (nth q rights right1 x) v
    = fold_left (fun v i => (nth (i / 16) lefts left1 x i (fst v), nth (i / 16) rights right1 x i (snd v))) (seq (16 * q) 16) v).
  { clear v. intros q v Hq. unfold loop. assert (E : forall i, In i (seq (16 * q) 16) -> (i / 16 = q)%nat).
    { intros i I. apply in_seq in I. symmetry. apply (Nat.div_unique i 16 q (i - 16 * q)); lia. }
    revert v E. generalize (seq (16 * q) 16). intros l. induction l as [|i l IH]; intros v E; [reflexivity|].
    cbn [fold_left]. rewrite (E i) by now left. apply IH. intros j J. apply E. now right. }
  change (seq 0 80) with (seq (16 * 0) 16 ++ seq (16 * 1) 16 ++ seq (16 * 2) 16 ++ seq (16 * 3) 16 ++ seq (16 * 4) 16).
  rewrite !fold_left_app. rewrite <- !L by lia. reflexivity.
Qed.
Lemma lines_ok x X l : (forall w, (w < 16)%nat -> x w = X w) -> (forall i, In i l -> (i < 80)%nat) -> forall a b, ok5 a -> ok5 b ->
  let v := fold_left (fun v i => (nth (i / 16) lefts left1 x i (fst v), nth (i / 16) rights right1 x i (snd v))) l (a, b) in
  ok5 (fst v) /\ ok5 (snd v)
  /\ tov (fst v) = fold_left (fun v j => let '(round, k) := (j / 16, j mod 16)%nat in
       step (f round) (X (r round k)) (K round) (shift round (r round k)) v) l (tov a)
  /\ tov (snd v) = fold_left (fun v j => let '(round, k) := (j / 16, j mod 16)%nat in
       step (f (4 - round)) (X (r' round k)) (K' round) (shift round (r' round k)) v) l (tov b).
Proof.
  intros HX. induction l as [|i l IH]; intros Hl a b Ha Hb; [cbn; auto|].
  cbn [fold_left fst snd]. assert (Hi : (i < 80)%nat) by (apply Hl; now left).
  destruct (left_step x X i a Hi Ha HX) as [L1 L2]. destruct (right_step x X i b Hi Hb HX) as [R1 R2]. cbv zeta in L1, L2, R1, R2.
  rewrite <- L1, <- R1. apply IH; auto. intros j J. apply Hl. now right.
Qed.
Lemma block_compress x X md : (forall w, (w < 16)%nat -> x w = X w) -> ok5 md ->
  tov (block x md) = compress (tov md) X /\ ok5 (block x md).
Proof.
  intros HX H. unfold block. rewrite loops_fold.
  destruct (lines_ok x X (seq 0 80) HX) with (a := md) (b := md) as (Hl & Hr & El & Er); auto.
  { intros i I. apply in_seq in I. lia. }
  destruct (fold_left _ (seq 0 80) (md, md)) as [l rr]. cbn [fst snd] in *.
  assert (C : compress (tov md) X = 
     let '(A, B, C, D, E) := tov l in let '(A', B', C', D', E') := tov rr in
     (plus [w1 md; C; D'], plus [w2 md; D; E'], plus [w3 md; E; A'], plus [w4 md; A; B'], plus [w0 md; B; C'])).
  { unfold compress, left_line, right_line. rewrite <- El, <- Er. reflexivity. }
  rewrite C. unfold tov. cbn [w0 w1 w2 w3 w4]. split.
  - repeat apply f_equal2; unfold add32, u32, plus; cbn [fold_right]; change (2 ^ 32) with 4294967296; lia.
  - unfold ok5. cbn [w0 w1 w2 w3 w4]. do 4 (split; [apply add32_w32|]). apply add32_w32.
Qed.

(** ** Loading words *)
Lemma load_words p i : (64 <= length p)%nat -> (i < 16)%nat -> load p i = words (firstn 64 p) i.
Proof.
  intros L Hi. unfold load, words. rewrite skipn_firstn_comm, firstn_firstn. rewrite Nat.min_l by lia.
  assert (LS : (4 <= length (skipn (4 * i) p))%nat) by (rewrite skipn_length; lia).
  assert (N : forall k, nth (4 * i + k) p x00 = nth k (skipn (4 * i) p) x00).
  { intros k. rewrite <- (firstn_skipn (4 * i) p) at 1. rewrite app_nth2; rewrite firstn_length_le by lia; [|lia]. f_equal. lia. }
  rewrite !N. destruct (skipn (4 * i) p) as [|a [|b [|c [|d t]]]]; cbn [length] in LS; try lia.
  cbn [nth firstn le_word fold_right].
  pose proof (zb_range a). pose proof (zb_range b). pose proof (zb_range c). pose proof (zb_range d).
  rewrite (lor_add_disjoint (zb a) (zb b) 8) by (change (2 ^ 8) with 256; lia).
  rewrite (lor_add_disjoint _ (zb c) 16) by (change (2 ^ 8) with 256; change (2 ^ 16) with 65536; lia).
  rewrite (lor_add_disjoint _ (zb d) 24) by (change (2 ^ 8) with 256; change (2 ^ 16) with 65536; change (2 ^ 24) with 16777216; lia).
  change (2 ^ 8) with 256. change (2 ^ 16) with 65536. change (2 ^ 24) with 16777216. lia.
Qed.

(** ** The block loop *)
Definition absorb (h : vars) (m : list byte) : vars :=
  fold_left (fun h b => compress h (words b)) (blocks (length m / 64) m) h.

Lemma div64_step n : (64 <= n)%nat -> (n / 64 = S ((n - 64) / 64))%nat.
Proof. intros H. replace n with ((n - 64) + 1 * 64)%nat at 1 by lia. rewrite Nat.div_add by lia. lia. Qed.
Lemma absorb_step h p : (64 <= length p)%nat -> absorb h p = absorb (compress h (words (firstn 64 p))) (skipn 64 p).
Proof. intros G. unfold absorb. rewrite skipn_length. rewrite (div64_step (length p) G). cbn [blocks fold_left]. reflexivity. Qed.
Lemma Block_spec fuel : forall md p, ok5 md -> (length p <= fuel)%nat ->
  tov (fst (Block fuel md p)) = absorb (tov md) p /\ ok5 (fst (Block fuel md p))
  /\ snd (Block fuel md p) = (64 * (length p / 64))%nat.
Proof.
  induction fuel as [|fuel IH]; intros md p H L.
  { destruct p; [|cbn [length] in L; lia]. cbn. auto. }
  cbn [Block]. destruct (Nat.leb_spec 64 (length p)) as [G|G].
  - destruct (block_compress (load p) (words (firstn 64 p)) md) as [C K]; [intros w Hw; now apply load_words|exact H|].
    specialize (IH (block (load p) md) (skipn 64 p) K). rewrite skipn_length in IH. specialize (IH ltac:(lia)).
    destruct (Block fuel _ _) as [md' n]. cbn [fst snd] in *. destruct IH as (I1 & I2 & I3).
    split; [|split; [exact I2|]].
    + rewrite I1, C. symmetry. now apply absorb_step.
    + rewrite I3, (div64_step (length p) G). lia.
  - unfold absorb. rewrite Nat.div_small by lia. cbn. auto.
Qed.
Lemma Block__spec md p : ok5 md ->
  exists md', Block_ md p = (md', (64 * (length p / 64))%nat) /\ tov md' = absorb (tov md) p /\ ok5 md'.
Proof.
  intros H. destruct (Block_spec (length p) md p H (le_n _)) as (A & B & C). unfold Block_.
  destruct (Block (length p) md p) as [md' n]. cbn [fst snd] in *. subst n. eauto.
Qed.

Lemma blocks_app n k a b : length a = (64 * n)%nat -> blocks (n + k) (a ++ b) = blocks n a ++ blocks k b.
Proof.
  revert a. induction n as [|n IH]; intros a L; [destruct a; [reflexivity|cbn [length] in L; lia]|].
  cbn [Nat.add blocks app]. rewrite firstn_app, skipn_app.
  replace (64 - length a)%nat with 0%nat by lia. rewrite firstn_O, skipn_O, app_nil_r. f_equal.
  apply IH. rewrite skipn_length. lia.
Qed.
Lemma absorb_app h a b : (length a mod 64 = 0)%nat -> absorb h (a ++ b) = absorb (absorb h a) b.
Proof.
  intros D. unfold absorb. assert (L : length a = (64 * (length a / 64))%nat) by (apply Nat.div_exact; lia).
  rewrite app_length. set (n := (length a / 64)%nat) in *.
  replace ((length a + length b) / 64)%nat with (n + length b / 64)%nat.
  2: { rewrite L. rewrite (Nat.mul_comm 64 n), Nat.div_add_l by lia. reflexivity. }
  rewrite (blocks_app n) by exact L. apply fold_left_app.
Qed.
(** A tail shorter than a block is not absorbed. *)
Lemma blocks_firstn n m : blocks n (firstn (64 * n) m) = blocks n m.
Proof.
  revert m. induction n as [|n IH]; intros m; [reflexivity|]. cbn [blocks].
  rewrite firstn_firstn, skipn_firstn_comm. rewrite Nat.min_l by lia. replace (64 * S n - 64)%nat with (64 * n)%nat by lia.
  now rewrite IH.
Qed.
Definition whole (m : list byte) : list byte := firstn (64 * (length m / 64)) m.
Definition tail (m : list byte) : list byte := skipn (64 * (length m / 64)) m.
Lemma whole_length m : length (whole m) = (64 * (length m / 64))%nat.
Proof. unfold whole. rewrite firstn_length_le; [reflexivity|]. pose proof (Nat.mul_div_le (length m) 64). lia. Qed.
Lemma tail_length m : length (tail m) = (length m mod 64)%nat.
Proof. unfold tail. rewrite skipn_length. pose proof (Nat.div_mod (length m) 64). lia. Qed.
Lemma whole_tail m : whole m ++ tail m = m.
Proof. apply firstn_skipn. Qed.
Lemma absorb_whole h m : absorb h (whole m) = absorb h m.
Proof. unfold absorb. rewrite whole_length. rewrite Nat.mul_comm, Nat.div_mul by lia. unfold whole. now rewrite blocks_firstn. Qed.
Lemma whole_mod m : (length (whole m) mod 64 = 0)%nat.
Proof. rewrite whole_length, Nat.mul_comm. apply Nat.mod_mul. lia. Qed.

(** ** The digest state *)
(** [d] has been fed the bytes [m] since it was created or reset. *)
Definition fed (d : digest) (m : list byte) : Prop :=
  ok5 (ds d) /\ tov (ds d) = absorb h_init m /\ length (dx d) = 64%nat
  /\ nx d = length (tail m) /\ firstn (nx d) (dx d) = tail m /\ tc d = u64 (zlen m).

Lemma fed_New : fed New [].
Proof. unfold fed, New, Reset, ok5, w32. cbn. repeat split; first [reflexivity|lia|discriminate]. Qed.
Lemma fed_Reset d m : fed d m -> fed (Reset d) [].
Proof. intros (_ & _ & L & _). unfold fed, Reset, ok5, w32. cbn. repeat split; first [exact L|reflexivity|lia|discriminate]. Qed.

Lemma tail_split m p : (length m mod 64 = 0)%nat -> tail (m ++ p) = tail p.
Proof.
  intros D. unfold tail. assert (L : length m = (64 * (length m / 64))%nat) by (apply Nat.div_exact; lia).
  rewrite app_length. set (n := (length m / 64)%nat) in *. rewrite L at 1. rewrite (Nat.mul_comm 64 n), Nat.div_add_l by lia.
  rewrite Nat.mul_add_distr_l, skipn_app, L. rewrite skipn_all2 by lia. cbn [app]. f_equal. lia.
Qed.
Lemma tail_small p : (length p < 64)%nat -> tail p = p.
Proof. intros H. unfold tail. rewrite Nat.div_small by lia. reflexivity. Qed.

(** The second half of Write: whole blocks, then the remainder into the buffer. *)
Lemma write_rest s x t m p : ok5 s -> tov s = absorb h_init m -> (length m mod 64 = 0)%nat -> length x = 64%nat ->
  exists s' x', 
  (let (s1, n) := Block_ s p in
   let p := skipn n p in
   let d := Digest s1 x 0 t in
   match p with [] => d | _ => let c := firstn 64 p in Digest (ds d) (blit (dx d) 0 c) (length c) (tc d) end)
  = Digest s' x' (length (tail p)) t
  /\ ok5 s' /\ tov s' = absorb h_init (m ++ p) /\ length x' = 64%nat /\ firstn (length (tail p)) x' = tail p.
Proof.
  intros H E D L. destruct (Block__spec s p H) as (s' & -> & E' & H'). cbv zeta. fold (tail p).
  pose proof (tail_length p) as LT. pose proof (Nat.mod_upper_bound (length p) 64 ltac:(lia)) as B.
  exists s'. destruct (tail p) as [|c0 t0] eqn:Q.
  - exists x. split; [reflexivity|]. split; [exact H'|]. split; [rewrite absorb_app by exact D; now rewrite E', E|]. auto.
  - set (c := c0 :: t0) in *. rewrite (firstn_all2 c) by lia. exists (blit x 0 c).
    split; [reflexivity|]. split; [exact H'|]. split; [rewrite absorb_app by exact D; now rewrite E', E|].
    unfold blit. cbn [firstn app Nat.add]. split.
    + rewrite app_length, skipn_length. lia.
    + rewrite firstn_app, firstn_all, Nat.sub_diag. cbn [firstn]. apply app_nil_r.
Qed.
Lemma whole_app_small m p : absorb h_init (m ++ p) = absorb h_init (whole m ++ (tail m ++ p)).
Proof. rewrite app_assoc, whole_tail. reflexivity. Qed.

Lemma fed_Write d m p : fed d m -> fed (fst (Write d p)) (m ++ p) /\ snd (Write d p) = length p.
Proof.
  intros (H & E & L & N & X & T). pose proof (tail_length m) as LT. pose proof (Nat.mod_upper_bound (length m) 64 ltac:(lia)) as B.
  assert (TC : u64 (tc d + zlen p) = u64 (zlen (m ++ p))).
  { rewrite T, zlen_app. unfold u64. rewrite Zplus_mod_idemp_l. reflexivity. }
  assert (ET : forall p', tail (m ++ p') = tail (tail m ++ p')).
  { intros p'. rewrite <- (whole_tail m) at 1. rewrite <- app_assoc. apply tail_split, whole_mod. }
  unfold Write. cbn [ds dx nx tc]. rewrite TC. set (t := u64 (zlen (m ++ p))) in *.
  destruct (Nat.ltb_spec 0 (nx d)) as [G|G].
  - set (n := Nat.min (length p) (64 - nx d)). set (x := blit (dx d) (nx d) (firstn n p)).
    assert (LF : length (firstn n p) = n) by (apply firstn_length_le; unfold n; lia).
    assert (LX : length x = 64%nat).
    { unfold x, blit. rewrite !app_length, skipn_length, LF, firstn_length_le by lia. unfold n. lia. }
    assert (FX : firstn (nx d + n) x = tail m ++ firstn n p).
    { unfold x, blit. rewrite X. rewrite app_assoc, firstn_app. rewrite (firstn_all2 (tail m ++ firstn n p)) by (rewrite app_length, LF; lia).
      rewrite app_length, LF, <- N, Nat.sub_diag. cbn [firstn]. apply app_nil_r. }
    destruct (Nat.eqb_spec (nx d + n) 64) as [Q|Q].
    + (* the buffered block is complete *)
      rewrite Q, firstn_all2 in FX by lia.
      destruct (Block__spec (ds d) x H) as (s1 & EB & E1 & H1). rewrite EB. cbn [fst ds dx nx tc].
      assert (EM : tov s1 = absorb h_init (m ++ firstn n p)).
      { rewrite whole_app_small, absorb_app by apply whole_mod. rewrite absorb_whole, <- FX, <- E. exact E1. }
      assert (DM : (length (m ++ firstn n p) mod 64 = 0)%nat).
      { rewrite app_length, LF. rewrite <- Nat.add_mod_idemp_l by lia. rewrite <- LT, <- N, Q. reflexivity. }
      destruct (write_rest s1 x t (m ++ firstn n p) (skipn n p) H1 EM DM LX) as (s' & x' & EQ & R1 & R2 & R3 & R4).
      cbn [ds dx nx tc] in EQ. destruct (Block_ s1 (skipn n p)) as [s2 n2] eqn:EB2. cbn [ds dx nx tc] in EQ |- *. rewrite EQ. cbn [fst snd].
      rewrite <- app_assoc, firstn_skipn in R2.
      assert (TT : tail (m ++ p) = tail (skipn n p)).
      { rewrite <- (firstn_skipn n p) at 1. rewrite app_assoc. now apply tail_split. }
      split; [|reflexivity]. unfold fed. cbn [ds dx nx tc]. rewrite TT. auto 10.
    + (* everything fits in the buffer *)
      assert (NP : n = length p) by (unfold n in *; lia). assert (LM : (nx d + length p < 64)%nat) by (unfold n in *; lia).
      assert (SK : skipn n p = []) by (apply skipn_all2; lia). assert (FN : firstn n p = p) by (apply firstn_all2; lia).
      rewrite SK. cbn [ds dx nx tc]. destruct (Block__spec (ds d) [] H) as (s1 & EB & E1 & H1). rewrite EB.
      replace (skipn (64 * (length (@nil byte) / 64)) []) with (@nil byte) by (symmetry; apply skipn_nil). cbn [fst snd ds dx nx tc].
      change (absorb (tov (ds d)) []) with (tov (ds d)) in E1.
      assert (TT : tail (m ++ p) = tail m ++ p).
      { rewrite ET. apply tail_small. rewrite app_length. lia. }
      assert (AB : absorb h_init (m ++ p) = absorb h_init m).
      { rewrite whole_app_small, absorb_app by apply whole_mod. rewrite absorb_whole. unfold absorb at 1.
        rewrite (Nat.div_small (length (tail m ++ p))) by (rewrite app_length; lia). reflexivity. }
      split; [|reflexivity]. unfold fed. cbn [ds dx nx tc]. rewrite TT, AB. rewrite FN in FX.
      split; [exact H1|]. split; [congruence|]. split; [exact LX|]. split; [rewrite app_length; lia|]. split; [exact FX|reflexivity].
  - assert (N0 : nx d = 0%nat) by lia. assert (TM : tail m = []) by (destruct (tail m); [reflexivity|cbn [length] in N; lia]).
    assert (DM : (length m mod 64 = 0)%nat) by lia.
    destruct (write_rest (ds d) (dx d) t m p H E DM L) as (s' & x' & EQ & R1 & R2 & R3 & R4).
    cbn [ds dx nx tc] in EQ |- *. rewrite N0. destruct (Block_ (ds d) p) as [s1 n1] eqn:EB. rewrite EQ. cbn [fst snd].
    split; [|reflexivity]. unfold fed. cbn [ds dx nx tc]. rewrite (tail_split m p DM). auto 10.
Qed.

(** ** Sum *)
Lemma put32_word w : put32 w = word_bytes w.
Proof. unfold put32, word_bytes. rewrite !Z.shiftr_div_pow2 by lia. reflexivity. Qed.
Lemma shl3 t : u64 (Z.shiftl t 3) = (8 * t) mod two64.
Proof. unfold u64. rewrite Z.shiftl_mul_pow2 by lia. change (2 ^ 3) with 8. f_equal. lia. Qed.
Lemma len_bytes n : 0 <= n ->
  map (fun i => bz (Z.shiftr ((8 * u64 n) mod two64) (8 * Z.of_nat i))) (seq 0 8)
  = word_bytes ((8 * n) mod 2 ^ 32) ++ word_bytes ((8 * n) / 2 ^ 32 mod 2 ^ 32).
Proof.
  intros H. replace ((8 * u64 n) mod two64) with ((8 * n) mod two64).
  2: { unfold u64. rewrite Zmult_mod_idemp_r. reflexivity. }
  set (B := 8 * n). cbn [seq map]. rewrite !Z.shiftr_div_pow2 by lia. unfold word_bytes. cbn [app].
  repeat match goal with |- context [8 * Z.of_nat ?k] => let z := eval vm_compute in (8 * Z.of_nat k) in change (8 * Z.of_nat k) with z end.
  repeat match goal with |- context [2 ^ ?k] => let z := eval vm_compute in (2 ^ k) in change (2 ^ k) with z end.
  repeat apply f_equal2; try reflexivity; apply bz_eq; lia.
Qed.
Lemma padding_len n : (length (A:=byte) (zeros (padding_zeros n)) = (119 - n mod 64) mod 64)%nat.
Proof. unfold zeros. apply repeat_length. Qed.
Lemma firstn_zeros k n : (k <= n)%nat -> firstn k (zeros n) = zeros k.
Proof. revert n. induction k as [|k IH]; intros [|n] H; [reflexivity|reflexivity|lia|]. unfold zeros in *. cbn [repeat firstn]. f_equal. apply IH. lia. Qed.

Lemma pad_first (m : list byte) : let t := u64 (zlen m) in
  (if t mod 64 <? 56 then firstn (Z.to_nat (56 - t mod 64)) (x80 :: zeros 63)
   else firstn (Z.to_nat (64 + 56 - t mod 64)) (x80 :: zeros 63)) = x80 :: zeros (padding_zeros (length m)).
Proof.
  cbv zeta. assert (E : u64 (zlen m) mod 64 = Z.of_nat (length m mod 64)).
  { unfold u64, zlen. rewrite Nat2Z.inj_mod. change (Z.of_nat 64) with 64. generalize (Z.of_nat (length m)). intros z. lia. }
  rewrite E. unfold padding_zeros. pose proof (Nat.mod_upper_bound (length m) 64 ltac:(lia)) as B.
  set (k := (length m mod 64)%nat) in *. destruct (Z.ltb_spec (Z.of_nat k) 56).
  - replace (Z.to_nat (56 - Z.of_nat k)) with (S (55 - k)) by lia. cbn [firstn]. rewrite firstn_zeros by lia.
    replace ((119 - k) mod 64)%nat with (55 - k)%nat; [reflexivity|].
    replace (119 - k)%nat with (55 - k + 1 * 64)%nat by lia. rewrite Nat.mod_add by lia. now rewrite Nat.mod_small by lia.
  - replace (Z.to_nat (64 + 56 - Z.of_nat k)) with (S (119 - k)) by lia. cbn [firstn]. rewrite firstn_zeros by lia.
    now rewrite Nat.mod_small by lia.
Qed.
Lemma padded_mod m : (length (padded m) mod 64 = 0)%nat.
Proof.
  unfold padded. rewrite !app_length, padding_len. cbn [length word_bytes].
  pose proof (Nat.mod_upper_bound (length m) 64 ltac:(lia)). pose proof (Nat.div_mod (length m) 64 ltac:(lia)) as D.
  set (k := (length m mod 64)%nat) in *. set (q := (length m / 64)%nat) in *.
  destruct (Nat.lt_ge_cases k 56).
  - replace (119 - k)%nat with (55 - k + 1 * 64)%nat by lia. rewrite Nat.mod_add by lia. rewrite (Nat.mod_small (55 - k)) by lia.
    replace (length m + _)%nat with (0 + (q + 1) * 64)%nat by lia. rewrite Nat.mod_add by lia. reflexivity.
  - rewrite (Nat.mod_small (119 - k)) by lia.
    replace (length m + _)%nat with (0 + (q + 2) * 64)%nat by lia. rewrite Nat.mod_add by lia. reflexivity.
Qed.
Lemma fed_Sum d m inn : fed d m -> Sum d inn = Ok (inn ++ ripemd160 m).
Proof.
  intros H. pose proof H as (_ & _ & _ & _ & _ & T). unfold Sum.
  pose proof (pad_first m) as P. cbv zeta in P. rewrite <- T in P.
  assert (W : (if tc d mod 64 <? 56 then Write d (firstn (Z.to_nat (56 - tc d mod 64)) (x80 :: zeros 63))
               else Write d (firstn (Z.to_nat (64 + 56 - tc d mod 64)) (x80 :: zeros 63)))
              = Write d (x80 :: zeros (padding_zeros (length m)))).
  { rewrite <- P. destruct (tc d mod 64 <? 56); reflexivity. }
  rewrite W. clear W. destruct (fed_Write d m (x80 :: zeros (padding_zeros (length m))) H) as [F1 _].
  destruct (Write d (x80 :: zeros _)) as [d1 n1]. cbn [fst] in F1. cbv zeta.
  set (len := map _ (seq 0 8)). assert (EL : len = word_bytes ((8 * zlen m) mod 2 ^ 32) ++ word_bytes ((8 * zlen m) / 2 ^ 32 mod 2 ^ 32)).
  { unfold len. rewrite <- len_bytes by apply zlen_nonneg. rewrite shl3, T. reflexivity. }
  destruct (fed_Write d1 _ len F1) as [F2 _]. destruct (Write d1 len) as [d2 n2]. cbn [fst] in F2.
  assert (PM : (m ++ x80 :: zeros (padding_zeros (length m))) ++ len = padded m).
  { unfold padded. rewrite EL, <- !app_assoc. reflexivity. }
  rewrite PM in F2. destruct F2 as (_ & E2 & _ & N2 & _ & _). rewrite tail_length, padded_mod in N2. rewrite N2. cbn [Nat.eqb negb].
  f_equal. f_equal. rewrite !put32_word. unfold ripemd160. change (fold_left _ (blocks _ (padded m)) h_init) with (absorb h_init (padded m)).
  rewrite <- E2. reflexivity.
Qed.
