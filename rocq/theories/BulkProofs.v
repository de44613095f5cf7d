(** How big a decoded value is. *)
From Verif Require Import Base Prog GoVarint AbiPrim BaseProofs SpecWire ProgProofs AbiPrimProofs Chain SpecChain ChainProofs
  Values Leaf SpecLeaf LeafProofs CanonicalProofs AbiDyn SpecAbi AbiResolveProofs AbiCodecProofs AbiTermProofs AbiStrictProofs AbiApiProofs ReencodeProofs SpecBulk.

Definition total (l : list gval) : Z := fold_right (fun v s => bulk v + s) 0 l.
Definition total_of (m : list (name * gval)) : Z := fold_right (fun kv s => bulk (snd kv) + s) 0 m.
Lemma bulk_slice l : bulk (VSlice l) = 1 + total l.
Proof. induction l as [|v l IH]; [reflexivity|]. cbn [bulk total fold_right] in *. fold (total l). lia. Qed.
Lemma bulk_map m : m <> [] -> bulk (VMap m) = total_of m.
Proof.
  intros NE. destruct m as [|[k v] m]; [congruence|]. cbn [bulk total_of fold_right snd]. clear NE. f_equal.
  induction m as [|[k' v'] m IH]; [reflexivity|]. cbn [fold_right snd]. now rewrite IH.
Qed.
Lemma held_nonneg p : 0 <= held p.
Proof. destruct p; cbn [held]; try lia; apply zlen_nonneg. Qed.
Lemma bulk_pos : forall v, 1 <= bulk v.
Proof.
  fix IH 1. intros [|p|l|m|i]; cbn [bulk]; try lia.
  - pose proof (held_nonneg p). lia.
  - assert (X : 0 <= (fix all l := match l with [] => 0 | v :: l => bulk v + all l end) l); [|lia].
    induction l as [|v l IHl]; [lia|]. specialize (IH v). lia.
  - destruct m as [|[k v] m]; [lia|]. pose proof (IH v).
    assert (X : 0 <= (fix all m := match m with [] => 0 | (_, v) :: m => bulk v + all m end) m); [|lia]. clear - IH.
    induction m as [|[k v] m IHm]; [lia|]. specialize (IH v). lia.
Qed.
Lemma total_app l l' : total (l ++ l') = total l + total l'.
Proof. induction l as [|v l IH]; cbn [app total fold_right]; [reflexivity|]. unfold total in *. lia. Qed.
Lemma total_assign m k v : total_of (assign m k v) <= total_of m + bulk v.
Proof.
  induction m as [|[k' v'] m IH]; cbn [assign].
  - cbn. pose proof (bulk_pos v). lia.
  - pose proof (bulk_pos v'). pose proof (bulk_pos v). destruct (bytes_eqb k' k); cbn [total_of fold_right snd] in *; unfold total_of in *; lia.
Qed.

Lemma sized_bulk (rd : io (list byte)) :
  (forall env inp b rest, run env rd inp = Done (b, None) rest ->
     exists l r n, run env ReadVaruint inp = Done (l, None) r /\ run env (ReadBytes (i64 l)) r = Done ((n, b), None) rest) ->
  takes (fun c b => 1 + zlen b <= zlen c) rd.
Proof.
  intros H env inp b rest R. apply H in R as (l & r & n & R1 & R2).
  apply Varuint_takes in R1 as (pre & -> & W & _). apply ReadBytes_exact in R2 as [L ->].
  exists (pre ++ b). split; [now rewrite app_assoc|]. rewrite zlen_app.
  destruct pre; [destruct W|]. unfold zlen. cbn [length]. lia.
Qed.
Lemma String_bulk : takes (fun c b => 1 + zlen b <= zlen c) ReadString.
Proof.
  apply sized_bulk. intros env inp b rest R. unfold ReadString in R. rewrite run_dtry in R.
  destruct (run env ReadVaruint inp) as [[l [e|]] r|m|]; try discriminate. rewrite run_dbind in R.
  destruct (run env (ReadBytes (i64 l)) r) as [[[n d] [e|]] r'|m|] eqn:E; try discriminate. cbn [run] in R. injection R as <- <-. eauto 6.
Qed.
Lemma Bytes_bulk old : takes (fun c b => 1 + zlen b <= zlen c) (Bytes_UnmarshalABI old).
Proof.
  apply sized_bulk. intros env inp b rest R. unfold Bytes_UnmarshalABI in R. rewrite run_dtry in R.
  destruct (run env ReadVaruint inp) as [[l [e|]] r|m|]; try discriminate. rewrite run_dbind in R.
  destruct (run env (ReadBytes (i64 l)) r) as [[[n d] [e|]] r'|m|] eqn:E; try discriminate. cbn [run] in R. injection R as <- <-. eauto 6.
Qed.
Lemma key_bulk c k : covers false c (Key_MarshalABI k) -> 1 + zlen (KData k) <= zlen c.
Proof.
  intros C. destruct (C ([bz (KType k)] ++ KData k)) as [L _].
  - apply writes_etry; [apply writes_byte|apply writes_bytes].
  - rewrite zlen_app in L. change (zlen [bz (KType k)]) with 1 in L. exact L.
Qed.
Lemma builtin_bulk b : takes (fun c v => bulk v <= zlen c) (decodeBuiltin b).
Proof.
  assert (ONE : forall {A} (cs : A -> prim) rd, (forall x, held (cs x) = 0) -> eats (into cs rd) -> takes (fun c v => bulk v <= zlen c) (into cs rd)).
  { intros A cs rd H E env inp v rest R. destruct (E env inp v rest R) as (c & EQ & NE). exists c. split; [exact EQ|].
    apply into_run in R as (x & -> & _). cbn [bulk]. rewrite H. destruct c; [congruence|]. unfold zlen. cbn [length]. lia. }
  assert (SIZED : forall {A} (cs : A -> prim) rd, takes (fun c x => 1 + held (cs x) <= zlen c) rd -> takes (fun c v => bulk v <= zlen c) (into cs rd)).
  { intros A cs rd H env inp v rest R. apply into_run in R as (x & -> & R). exact (H env inp x rest R). }
  pose proof (eats_builtin b) as E. revert E. unfold decodeBuiltin. destruct (builtin_of b) as [B|]; [|intros; apply takes_error].
  destruct B; cbv iota; intros E; try apply takes_error; try (apply ONE; [reflexivity|exact E]); apply SIZED; cbn [held].
  - apply String_bulk.
  - apply Bytes_bulk.
  - eapply takes_weaken; [apply (WPublicKey_takes false)|]. apply key_bulk.
  - eapply takes_weaken; [apply (WSignature_takes false)|]. apply key_bulk.
Qed.
Lemma elems_bulk K (f : io gval) : takes (fun c v => bulk v <= K * zlen c) f -> forall n acc,
  takes (fun c l => total l <= total acc + K * zlen c) (decode_elems f n acc).
Proof.
  intros H n. induction n as [|n IH]; intros acc; cbn [decode_elems].
  - apply takes_ret. change (zlen []) with 0. lia.
  - eapply takes_bind; [exact H| |intros; apply takes_error]. intros c v Hv. eapply takes_weaken; [apply IH|].
    intros c' l Hl. cbv beta in Hv, Hl |- *. rewrite total_app in Hl. change (total [v]) with (bulk v + 0) in Hl. rewrite zlen_app, Z.mul_add_distr_l. lia.
Qed.
Lemma fields_bulk K (dr : name -> io gval) fs : (forall f t, In (f, t) fs -> takes (fun c v => bulk v <= K * zlen c) (dr t)) -> forall acc,
  fs <> [] \/ acc <> [] -> takes (fun c v => bulk v <= total_of acc + K * zlen c) (decode_fields dr fs acc).
Proof.
  induction fs as [|[f t] fs IH]; intros H acc NE; cbn [decode_fields].
  - apply takes_ret. rewrite bulk_map by (destruct NE; congruence). change (zlen []) with 0. lia.
  - eapply takes_bind; [apply (H f); now left| |intros; apply takes_error]. intros c v Hv. cbv beta iota.
    eapply takes_weaken; [apply IH; [intros; eapply H; right; eassumption|right; destruct acc as [|[k' v'] acc]; cbn [assign]; [congruence|now destruct (bytes_eqb k' f)]]|]. intros c' x Hx. cbv beta in Hv, Hx |- *.
    pose proof (total_assign acc f v). rewrite zlen_app, Z.mul_add_distr_l. lia.
Qed.
Lemma type_bulk a n0 tbl L : table_for a n0 tbl -> no_extension a n0 -> names_within a n0 L -> 0 <= L -> forall fuel n, reach a n0 n ->
  takes (fun c v => bulk v <= (2 + L) * zlen c) (decodeType fuel tbl n).
Proof.
  intros TB NX NW PL. set (K := 2 + L). assert (PK : 2 <= K) by (unfold K; lia). induction fuel as [|fuel IH]; intros n R; [apply takes_fuel|].
  destruct (table_lookup _ _ _ _ TB R) as (t & LK & Ds). rewrite (decodeType_S _ _ _ _ LK).
  pose proof Ds as (N & D & _). pose proof (NX _ _ _ _ _ R D) as EX.
  assert (SI : takes (fun c v => bulk v <= K * zlen c) (decodeInner (decodeType fuel tbl) tbl t)).
  { unfold decodeInner. destruct (t_ref t) as [r|] eqn:E1.
    { apply (describes_alias _ _ _ _ _ _ _ r Ds D) in E1. apply IH. eapply reach_step; [exact R|exact D|exact E1|cbn; auto]. }
    destruct (allFields tbl (t_name t)) as [fs|] eqn:E2.
    { rewrite N in E2. apply (allFields_spec _ _ _ _ TB) in E2; [|now exists t]. destruct E2 as [I NE].
      eapply takes_weaken; [apply (fields_bulk K); [|now left]|intros c v H; exact H]. intros f m Hm. apply IH. eapply inherits_reach; eauto. }
    destruct (t_variant t) as [l|] eqn:E3.
    - apply (describes_variant _ _ _ _ _ _ _ l Ds D) in E3.
      eapply takes_bind; [apply eats_varuint| |intros; apply takes_error]. intros c i NE. cbv beta iota.
      destruct (zlen l <=? i64 i); [apply takes_error|]. destruct (at_ l i) as [tv|] eqn:EA; [|apply takes_panic].
      unfold at_ in EA. destruct (i <? 0); [discriminate|]. apply nth_error_In in EA.
      eapply takes_bind; [apply IH| |intros; apply takes_error].
      { eapply reach_step; [exact R|exact D|exact E3|exact EA]. }
      intros c' x Hx. apply takes_ret. rewrite app_nil_r, bulk_slice, zlen_app. cbn [total fold_right bulk held].
      pose proof (NW _ _ _ _ _ _ _ R D E3 EA). assert (1 <= zlen c) by (destruct c; [congruence|unfold zlen; cbn [length]; lia]). unfold K in *. nia.
    - eapply takes_weaken; [apply builtin_bulk|]. intros c v H. cbv beta in H. pose proof (zlen_nonneg c). nia. }
  assert (B : takes (fun c v => bulk v <= K * zlen c) (dec_body fuel tbl t)).
  { unfold dec_body. destruct (t_isArray t).
    - eapply takes_bind; [apply eats_varuint| |intros; rewrite ext_eof_plain by exact EX; apply takes_error].
      intros c l NE. cbv beta iota. destruct (make_ok 16 l); [|apply takes_panic].
      eapply takes_bind; [apply (elems_bulk K _ SI)| |intros; apply takes_error].
      intros c' va Hv. cbv beta in Hv. apply takes_ret. rewrite app_nil_r, bulk_slice, zlen_app. cbn [total fold_right] in Hv.
      assert (1 <= zlen c) by (destruct c; [congruence|unfold zlen; cbn [length]; lia]). nia.
    - eapply takes_bind; [apply SI| |intros; rewrite ext_eof_plain by exact EX; apply takes_error].
      intros c v H. rewrite ext_eof_plain by exact EX. apply takes_ret. now rewrite app_nil_r. }
  destruct (t_isOptional t); [|exact B].
  eapply takes_bind; [apply eats_bool| |intros; apply takes_error]. intros c f NE. cbv beta iota.
  assert (1 <= zlen c) by (destruct c; [congruence|unfold zlen; cbn [length]; lia]). destruct f.
  - eapply takes_weaken; [apply B|]. intros c' v Hv. cbv beta in Hv. rewrite zlen_app. nia.
  - apply takes_ret. rewrite app_nil_r. cbn [bulk]. nia.
Qed.
Lemma api_bulk env a n inp v rest L : no_extension a n -> names_within a n L -> 0 <= L -> decodes env a n inp (Done (v, None) rest) ->
  exists c, inp = c ++ rest /\ bulk v <= (2 + L) * zlen c.
Proof.
  intros NX NW PL (_ & F & HF). specialize (HF F ltac:(lia)). pose proof (decode_well_named _ _ _ _ _ _ _ HF) as W.
  destruct (resolved a n W) as (tbl & _ & T & ED & _). rewrite ED in HF.
  exact (type_bulk a n tbl L T NX NW PL F n (reach_refl _ _) env inp v rest HF).
Qed.
