(** What is said of the target of a Decode that failed. *)
From Verif Require Import Base Prog Values Leaf Reflect.
Import ListNotations.
Local Open Scope Z_scope.

(** The types of package chain that are stored only once they have been read whole. *)
Inductive stored_whole : kind -> Prop :=
| sw_name : stored_whole KName | sw_symbol : stored_whole KSymbol | sw_code : stored_whole KSymbolCode
| sw_u64 : stored_whole KUint64 | sw_u128 : stored_whole KUint128 | sw_i128 : stored_whole KInt128
| sw_f128 : stored_whole KFloat128 | sw_block : stored_whole KBlockNum
| sw_tp : stored_whole KTimePoint | sw_tps : stored_whole KTimePointSec | sw_bt : stored_whole KBlockTimestamp
| sw_160 : stored_whole KChecksum160 | sw_256 : stored_whole KChecksum256 | sw_512 : stored_whole KChecksum512
| sw_bytes : stored_whole KBytes | sw_blob : stored_whole KBlob.
(** Go's own types, but for []byte. *)
Inductive go_basic : kind -> Prop :=
| gb_bool : go_basic KBool | gb_string : go_basic KString
| gb_u8 : go_basic KU8 | gb_u16 : go_basic KU16 | gb_u32 : go_basic KU32 | gb_u64 : go_basic KU64
| gb_i8 : go_basic KI8 | gb_i16 : go_basic KI16 | gb_i32 : go_basic KI32 | gb_i64 : go_basic KI64
| gb_f32 : go_basic KF32 | gb_f64 : go_basic KF64 | gb_int : go_basic KInt | gb_uint : go_basic KUint.

(** Keys and values read in turn, with nothing between them. *)
Inductive entries_read (env : renv) (key value : io rval) : list byte -> list (rval * rval) -> list byte -> Prop :=
| er_nil inp : entries_read env key value inp [] inp
| er_cons inp k r x r' ps rest : run env key inp = Done (k, None) r -> run env value r = Done (x, None) r' ->
    entries_read env key value r' ps rest -> entries_read env key value inp ((k, x) :: ps) rest.
(** The last of the pairs that have the key [k] has the value [x]. *)
Definition last_entry (k x : rval) (ps : list (rval * rval)) : Prop :=
  exists before after, ps = before ++ (k, x) :: after /\ ~ In k (map fst after).
