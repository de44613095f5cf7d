(** Specification of what Abi.Decode returns beside an error. *)
From Verif Require Import Base Prog AbiPrim SpecWire Chain SpecChain Values Leaf SpecLeaf Reflect SpecReflect AbiDyn SpecAbi.

(** [p] is what a Decode of its Go type that fails leaves in a new variable. *)
Definition left_by_decode (env : renv) (inp : list byte) (p : prim) (e : gerr) (rest : list byte) : Prop :=
  forall E, exists z,
    run env (Decode 2 E (TLeaf (kind_of p)) (zero E (TLeaf (kind_of p)))) inp = Done (RLeaf p z, Some e) rest.

(** [body] with the byte in front that says that an optional value is there. *)
Definition with_flag (opt : bool) (inp body : list byte) : Prop :=
  if opt then exists flag, flag <> x00 /\ inp = flag :: body else inp = body.

(** The value returned with the error [e]: only a type that is, through aliases, a builtin
    one can leave something. *)
Inductive left_beside (env : renv) (a : Abi) : name -> list byte -> gerr -> list byte -> gval -> Prop :=
| lb_flag n b arr ext : decomposes n b arr true ext -> left_beside env a n [] (r_end env) [] VNil
| lb_array n b opt ext inp e rest : decomposes n b true opt ext -> left_beside env a n inp e rest VNil
| lb_struct n fs inp e rest : inherits a n fs -> fs <> [] -> left_beside env a n inp e rest VNil
| lb_variant n b opt ext l inp e rest : decomposes n b false opt ext -> defines a b (DVariant l) ->
    left_beside env a n inp e rest VNil
| lb_alias n b opt ext t inp body e rest v : decomposes n b false opt ext -> defines a b (DAlias t) ->
    with_flag opt inp body -> left_beside env a t body e rest v -> left_beside env a n inp e rest v
| lb_unknown n b opt ext inp e rest : decomposes n b false opt ext -> falls_through a n b ->
    (forall p, decoded_type p <> Some b) -> left_beside env a n inp e rest VNil
| lb_builtin n b opt ext inp body e rest p : decomposes n b false opt ext -> falls_through a n b ->
    decoded_type p = Some b -> with_flag opt inp body -> left_by_decode env body p e rest ->
    left_beside env a n inp e rest (VPrim p).
