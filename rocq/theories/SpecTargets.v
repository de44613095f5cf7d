(** Specification for targets with interface variables inside: the target without
    interfaces that they behave like. *)
From Verif Require Import Base Prog AbiPrim Chain Values Leaf Reflect SpecReflect Targets.

Definition field : Type := (tag * visibility * gtype * rval) + (option tag * visibility * target).
Definition tag_of (o : option tag) : tag := match o with None => NoTag | Some tg => tg end.

(** Pointers and interfaces that lead, unless one is nil, to a value without interfaces
    inside. *)
Inductive settled : target -> Prop :=
| se_plain t v : settled (GPlain t v)
| se_nil : settled (GIface None)
| se_iface x : settled x -> settled (GIface (Some x))
| se_nil_ptr z : settled (GPtr z None)
| se_ptr z x : settled x -> settled (GPtr z (Some x)).

(** [looks nils E g t v]: as what Decode is pointed at, [g] is like the value [v] of
    type [t]: an interface variable holding a pointer is like that pointer.  Nil
    interfaces and pointers appear only if [nils] holds.
    [slot]: as a struct field or array element an interface variable holding a pointer
    is like a pointer to that pointer. *)
Inductive looks (nils : bool) : target -> gtype -> rval -> Prop :=
| lk_plain t v : direct t = true -> looks nils (GPlain t v) t v
| lk_iface x t v : looks nils x t v -> looks nils (GIface (Some x)) (TPtr t) (RPtr (Some v))
| lk_nil_iface t : nils = true -> looks nils (GIface None) (TPtr t) (RPtr None)
| lk_ptr z x t v : looks nils x t v -> looks nils (GPtr z (Some x)) (TPtr t) (RPtr (Some v))
| lk_nil_ptr z t : nils = true -> looks nils (GPtr z None) (TPtr t) (RPtr None)
| lk_array n t l l' : direct t = true -> length l = n -> slots nils l t l' -> looks nils (GArray l) (TArray n t) (RArray l')
| lk_struct fs ts l : field_slots nils fs ts l -> looks nils (GStruct fs) (TStruct ts) (RStruct l)
with slot (nils : bool) : target -> gtype -> rval -> Prop :=
| sl_plain t v : direct t = true -> slot nils (GPlain t v) t v
| sl_iface x t v : looks nils x t v -> slot nils (GIface (Some x)) (TPtr (TPtr t)) (RPtr (Some (RPtr (Some v))))
| sl_nil_iface t : nils = true -> slot nils (GIface None) (TPtr (TPtr t)) (RPtr None)
| sl_ptr z x t v : looks nils x t v -> slot nils (GPtr z (Some x)) (TPtr t) (RPtr (Some v))
| sl_nil_ptr z t : nils = true -> slot nils (GPtr z None) (TPtr t) (RPtr None)
| sl_array n t l l' : direct t = true -> length l = n -> slots nils l t l' -> slot nils (GArray l) (TArray n t) (RArray l')
| sl_struct fs ts l : field_slots nils fs ts l -> slot nils (GStruct fs) (TStruct ts) (RStruct l)
with slots (nils : bool) : list target -> gtype -> list rval -> Prop :=
| sls_nil t : slots nils [] t []
| sls_cons g l t v l' : slot nils g t v -> slots nils l t l' -> slots nils (g :: l) t (v :: l')
with field_slots (nils : bool) : list field -> list (tag * visibility * gtype) -> list rval -> Prop :=
| fsl_nil : field_slots nils [] [] []
| fsl_plain tg vis t v fs ts l : direct t = true -> field_slots nils fs ts l ->
    field_slots nils (inl (tg, vis, t, v) :: fs) ((tg, vis, t) :: ts) (v :: l)
| fsl_target o vis g t v fs ts l : (o = Some Variant -> settled g) -> slot nils g t v -> field_slots nils fs ts l ->
    field_slots nils (inr (o, vis, g) :: fs) ((tag_of o, vis, t) :: ts) (v :: l).

(** An interface variable where Decode looks that is nil or holds no pointer: not in an
    optional or extension field. *)
Inductive blocked_variant : target -> Prop :=
| bv_nil : blocked_variant (GIface None)
| bv_held : blocked_variant GHeld
| bv_iface x : blocked_variant x -> blocked_variant (GIface (Some x))
| bv_ptr z x : blocked_variant x -> blocked_variant (GPtr z (Some x))
| bv_nil_ptr z : blocked_variant z -> blocked_variant (GPtr z None).
Inductive blocked : target -> Prop :=
| bl_nil : blocked (GIface None)
| bl_held : blocked GHeld
| bl_iface x : blocked x -> blocked (GIface (Some x))
| bl_ptr z x : blocked x -> blocked (GPtr z (Some x))
| bl_nil_ptr z : blocked z -> blocked (GPtr z None)
| bl_array l g : In g l -> blocked g -> blocked (GArray l)
| bl_struct fs g : In (inr (None, Exported, g)) fs -> blocked g -> blocked (GStruct fs)
| bl_variant fs g : In (inr (Some Variant, Exported, g)) fs -> blocked_variant g -> blocked (GStruct fs).

(** Keys and values read in turn, with nothing between them. *)
Inductive pairs_read (env : renv) (key : io rval) (value : io target) : list byte -> list (rval * target) -> list byte -> Prop :=
| pr_nil inp : pairs_read env key value inp [] inp
| pr_cons inp k r x r' ps rest : run env key inp = Done (k, None) r -> run env value r = Done (x, None) r' ->
    pairs_read env key value r' ps rest -> pairs_read env key value inp ((k, x) :: ps) rest.
(** The last of the pairs that have the key [k] has the value [x]. *)
Definition last_pair (k : rval) (x : target) (ps : list (rval * target)) : Prop :=
  exists before after, ps = before ++ (k, x) :: after /\ ~ In k (map fst after).

(** The same error or panic, the same bytes left unread, related results. *)
Definition matching {A B} (R : A -> B -> Prop) (o : outcome (A * option gerr)) (o' : outcome (B * option gerr)) : Prop :=
  match o, o' with
  | Done (a, e) rest, Done (b, e') rest' => e = e' /\ rest = rest' /\ R a b
  | Crash m, Crash m' => m = m'
  | Diverged, Diverged => True
  | _, _ => False
  end.

Scheme looks_mind := Induction for looks Sort Prop
  with slot_mind := Induction for slot Sort Prop
  with slots_mind := Induction for slots Sort Prop
  with field_slots_mind := Induction for field_slots Sort Prop.
Combined Scheme looks_all from looks_mind, slot_mind, slots_mind, field_slots_mind.

(** Nil pointers, interfaces, slices and maps. *)
Inductive held_nil : target -> Prop :=
| hn_plain t v : is_zero v = true -> held_nil (GPlain t v)
| hn_iface : held_nil (GIface None)
| hn_ptr z : held_nil (GPtr z None)
| hn_slice size z : held_nil (GSlice size z None)
| hn_map kt z : held_nil (GMap kt z None).
