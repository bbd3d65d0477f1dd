(** What the assembler needs of the generated tables not to go wrong: the numbers found by name
    exist, and result ids and types are where the flags say. *)
From Verif Require Import Base Assembler.
Local Open Scope N_scope.

Record tables_complete (g : grammar) (t : tables) : Prop := {
  tc_op : forall w op, t_op_find t w = Some op -> g_opcode g op <> None;
  tc_operand : forall ty w v, t_operand_find t ty w = Some v -> g_operand g ty v <> None;
  tc_ext : forall s w v, t_ext_find t s w = Some v -> g_ext_inst g s v <> None;
  tc_spec : forall w op, t_spec_find t w = Some op -> exists a b ts, g_opcode g op = Some (a :: b :: ts);
  tc_type : forall op ts, t_has_type t op = true -> g_opcode g op = Some ts ->
    exists tail, ts = T_TYPE_ID :: T_RESULT_ID :: tail;
  tc_result : forall op ts, t_has_type t op = false -> t_has_result t op = true -> g_opcode g op = Some ts ->
    exists tail, ts = T_RESULT_ID :: tail;
  tc_switch : forall ts, g_opcode g OpSwitch = Some ts -> exists tail, ts = T_ID :: tail;
  tc_generates : forall op, g_generates_type g op = true -> t_has_result t op = true;
  tc_import : t_has_result t OpExtInstImport = true /\ t_has_type t OpExtInstImport = false;
  tc_switch_plain : t_has_result t OpSwitch = false /\ t_has_type t OpSwitch = false;
  tc_max : g_op_max g <> OpExtInstImport /\ g_op_max g <> OpSwitch
}.
