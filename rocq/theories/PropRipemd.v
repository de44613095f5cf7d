(** C34, C35: RIPEMD-160. *)
From Verif Require Import Base BaseProofs Hex Ripemd SpecRipemd RipemdProofs.

(** * C34 *)
Theorem C34_digest : forall m, Sum (fst (Write New m)) [] = Ok (ripemd160 m).
Proof. intros m. apply (fed_Sum _ m []). now apply (fed_Write New [] m), fed_New. Qed.
Print Assumptions C34_digest.
(** ... also when its result is appended to a prefix; in particular the internal
    panic is unreachable. *)
Theorem C34_append : forall m inn, Sum (fst (Write New m)) inn = Ok (inn ++ ripemd160 m).
Proof. intros m inn. apply (fed_Sum _ m inn). now apply (fed_Write New [] m), fed_New. Qed.
Print Assumptions C34_append.
(** The specification pads to whole blocks with the fewest zero bytes, and gives
    twenty bytes. *)
Theorem C34_padding : forall m z, (length (m ++ [x80] ++ zeros z) mod 64 = 56)%nat <->
  exists k, z = (padding_zeros (length m) + 64 * k)%nat.
Proof.
  intros m z. rewrite !app_length. unfold zeros. rewrite repeat_length. cbn [length]. unfold padding_zeros.
  pose proof (Nat.mod_upper_bound (length m) 64 ltac:(lia)). pose proof (Nat.div_mod (length m) 64 ltac:(lia)) as D.
  set (k := (length m mod 64)%nat) in *. set (q := (length m / 64)%nat) in *.
  assert (P : ((119 - k) mod 64 = if k <? 56 then 55 - k else 119 - k)%nat).
  { destruct (Nat.ltb_spec k 56); [|now rewrite Nat.mod_small by lia].
    replace (119 - k)%nat with (55 - k + 1 * 64)%nat by lia. rewrite Nat.mod_add by lia. now rewrite Nat.mod_small by lia. }
  rewrite P. split.
  - intros E. pose proof (Nat.div_mod (length m + (1 + z)) 64 ltac:(lia)) as E2. rewrite E in E2.
    exists ((length m + (1 + z)) / 64 - q - if (k <? 56)%nat then 0 else 1)%nat. destruct (Nat.ltb_spec k 56); lia.
  - intros [j ->]. destruct (Nat.ltb_spec k 56).
    + replace (length m + _)%nat with (56 + (q + j) * 64)%nat by lia. rewrite Nat.mod_add by lia. reflexivity.
    + replace (length m + _)%nat with (56 + (q + 1 + j) * 64)%nat by lia. rewrite Nat.mod_add by lia. reflexivity.
Qed.
Print Assumptions C34_padding.
Theorem C34_size : forall m, length (ripemd160 m) = 20%nat.
Proof.
  intros m. unfold ripemd160. destruct (fold_left _ _ _) as [[[[a b] c] d] e]. reflexivity.
Qed.
Print Assumptions C34_size.
(** The specification agrees with the published vectors. *)
Example C34_vectors :
  hex_EncodeToString (ripemd160 []) = str "9c1185a5c5e9fc54612808977ee8f548b2258d31"
  /\ hex_EncodeToString (ripemd160 (str "abc")) = str "8eb208f7e05d987a9b044a8e98c6b087f15a0bfc"
  /\ hex_EncodeToString (ripemd160 (str "message digest")) = str "5d0689ef49d2fae572b881b123a85ffa21595f36"
  /\ hex_EncodeToString (ripemd160 (str "abcdbcdecdefdefgefghfghighijhijkijkljklmklmnlmnomnopnopq"))
     = str "12a053384a9c0c88e405a06c27dcf49ada62eb2b"
  /\ hex_EncodeToString (ripemd160 (str "ABCDEFGHIJKLMNOPQRSTUVWXYZabcdefghijklmnopqrstuvwxyz0123456789"))
     = str "b0e20b6e3116640286ed3a87a5713079b21f5189".
Proof. vm_compute. auto. Qed.

(** * C35 *)
Inductive call : Type := CWrite (p : list byte) | CSum (inn : list byte) | CReset.
Inductive answer : Type := AWrite (n : nat) | ASum (r : res (list byte)) | AReset.
(** The package: the calls made on one hash, and what they return. *)
Fixpoint run (d : digest) (calls : list call) : list answer :=
  match calls with
  | [] => []
  | CWrite p :: cs => let (d', n) := Write d p in AWrite n :: run d' cs
  | CSum inn :: cs => ASum (Sum d inn) :: run d cs
  | CReset :: cs => AReset :: run (Reset d) cs
  end.
(** The specification: only the bytes written since the last reset matter. *)
Fixpoint expected (m : list byte) (calls : list call) : list answer :=
  match calls with
  | [] => []
  | CWrite p :: cs => AWrite (length p) :: expected (m ++ p) cs
  | CSum inn :: cs => ASum (Ok (inn ++ ripemd160 m)) :: expected m cs
  | CReset :: cs => AReset :: expected [] cs
  end.
Lemma run_fed calls : forall d m, fed d m -> run d calls = expected m calls.
Proof.
  induction calls as [|[p|inn|] cs IH]; intros d m F; cbn [run expected]; [reflexivity|..].
  - destruct (fed_Write d m p F) as [F' N]. destruct (Write d p) as [d' n]. cbn [fst snd] in *. subst n. f_equal. now apply IH.
  - rewrite (fed_Sum d m inn F). f_equal. now apply IH.
  - f_equal. apply IH. eapply fed_Reset; eauto.
Qed.
Theorem C35_history : forall calls, run New calls = expected [] calls.
Proof. intros calls. apply run_fed, fed_New. Qed.
Print Assumptions C35_history.
(** In particular only the concatenation of the writes matters. *)
Theorem C35_chunking : forall ps qs inn, concat ps = concat qs ->
  last (run New (map CWrite ps ++ [CSum inn])) AReset = last (run New (map CWrite qs ++ [CSum inn])) AReset
  /\ last (run New (map CWrite ps ++ [CSum inn])) AReset = ASum (Ok (inn ++ ripemd160 (concat ps))).
Proof.
  assert (L : forall ps inn m, last (expected m (map CWrite ps ++ [CSum inn])) AReset = ASum (Ok (inn ++ ripemd160 (m ++ concat ps)))).
  { induction ps as [|p ps IH]; intros inn m; [cbn; now rewrite app_nil_r|].
    cbn [map app expected concat]. rewrite app_assoc, <- IH. destruct ps as [|p2 ps]; reflexivity. }
  intros ps qs inn E. rewrite !C35_history, !L, E. auto.
Qed.
Print Assumptions C35_chunking.
Example C35_example : run New [CWrite (str "a"); CSum (str "x"); CWrite (str "bc"); CSum []; CReset; CSum []]
  = [AWrite 1; ASum (Ok (str "x" ++ ripemd160 (str "a"))); AWrite 2; ASum (Ok (ripemd160 (str "abc"))); AReset; ASum (Ok (ripemd160 []))].
Proof. vm_compute. reflexivity. Qed.
