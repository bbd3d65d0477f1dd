(** Model of source/spirv_target_env.cpp.  The tables are transcribed entry by entry.
    Texts are byte strings.  A failed assertion falls through to the return
    after the switch, as in a release build. *)
From Coq Require Import String.
From Verif Require Import Base Bytes TextLex ParseNumber.
Local Open Scope N_scope.

(** include/spirv-tools/libspirv.h spv_target_env *)
Inductive target_env : Set :=
  | UNIVERSAL_1_0 | VULKAN_1_0 | UNIVERSAL_1_1 | OPENCL_1_2 | OPENCL_EMBEDDED_1_2 | OPENCL_2_0 | OPENCL_EMBEDDED_2_0 | OPENCL_2_1 | OPENCL_EMBEDDED_2_1 | OPENCL_2_2 | OPENCL_EMBEDDED_2_2 | OPENGL_4_0 | OPENGL_4_1 | OPENGL_4_2 | OPENGL_4_3 | OPENGL_4_5 | UNIVERSAL_1_2 | UNIVERSAL_1_3 | VULKAN_1_1 | WEBGPU_0 | UNIVERSAL_1_4 | VULKAN_1_1_SPIRV_1_4 | UNIVERSAL_1_5 | VULKAN_1_2 | UNIVERSAL_1_6 | VULKAN_1_3 | VULKAN_1_4 | MAX.

(** every enumerator *)
Definition all_envs : list target_env :=
  [UNIVERSAL_1_0; VULKAN_1_0; UNIVERSAL_1_1; OPENCL_1_2; OPENCL_EMBEDDED_1_2; OPENCL_2_0; OPENCL_EMBEDDED_2_0; OPENCL_2_1; OPENCL_EMBEDDED_2_1; OPENCL_2_2; OPENCL_EMBEDDED_2_2; OPENGL_4_0; OPENGL_4_1; OPENGL_4_2; OPENGL_4_3; OPENGL_4_5; UNIVERSAL_1_2; UNIVERSAL_1_3; VULKAN_1_1; WEBGPU_0; UNIVERSAL_1_4; VULKAN_1_1_SPIRV_1_4; UNIVERSAL_1_5; VULKAN_1_2; UNIVERSAL_1_6; VULKAN_1_3; VULKAN_1_4; MAX].

(** spirv_target_env.cpp:27-89 spvTargetEnvDescription *)
Definition target_env_description (e : target_env) : list N :=
  match e with
  | UNIVERSAL_1_0 => bytes "SPIR-V 1.0"
  | VULKAN_1_0 => bytes "SPIR-V 1.0 (under Vulkan 1.0 semantics)"
  | UNIVERSAL_1_1 => bytes "SPIR-V 1.1"
  | OPENCL_1_2 => bytes "SPIR-V 1.0 (under OpenCL 1.2 Full Profile semantics)"
  | OPENCL_EMBEDDED_1_2 => bytes "SPIR-V 1.0 (under OpenCL 1.2 Embedded Profile semantics)"
  | OPENCL_2_0 => bytes "SPIR-V 1.0 (under OpenCL 2.0 Full Profile semantics)"
  | OPENCL_EMBEDDED_2_0 => bytes "SPIR-V 1.0 (under OpenCL 2.0 Embedded Profile semantics)"
  | OPENCL_2_1 => bytes "SPIR-V 1.0 (under OpenCL 2.1 Full Profile semantics)"
  | OPENCL_EMBEDDED_2_1 => bytes "SPIR-V 1.0 (under OpenCL 2.1 Embedded Profile semantics)"
  | OPENCL_2_2 => bytes "SPIR-V 1.2 (under OpenCL 2.2 Full Profile semantics)"
  | OPENCL_EMBEDDED_2_2 => bytes "SPIR-V 1.2 (under OpenCL 2.2 Embedded Profile semantics)"
  | OPENGL_4_0 => bytes "SPIR-V 1.0 (under OpenGL 4.0 semantics)"
  | OPENGL_4_1 => bytes "SPIR-V 1.0 (under OpenGL 4.1 semantics)"
  | OPENGL_4_2 => bytes "SPIR-V 1.0 (under OpenGL 4.2 semantics)"
  | OPENGL_4_3 => bytes "SPIR-V 1.0 (under OpenGL 4.3 semantics)"
  | OPENGL_4_5 => bytes "SPIR-V 1.0 (under OpenGL 4.5 semantics)"
  | UNIVERSAL_1_2 => bytes "SPIR-V 1.2"
  | UNIVERSAL_1_3 => bytes "SPIR-V 1.3"
  | VULKAN_1_1 => bytes "SPIR-V 1.3 (under Vulkan 1.1 semantics)"
  | UNIVERSAL_1_4 => bytes "SPIR-V 1.4"
  | VULKAN_1_1_SPIRV_1_4 => bytes "SPIR-V 1.4 (under Vulkan 1.1 semantics)"
  | UNIVERSAL_1_5 => bytes "SPIR-V 1.5"
  | VULKAN_1_2 => bytes "SPIR-V 1.5 (under Vulkan 1.2 semantics)"
  | UNIVERSAL_1_6 => bytes "SPIR-V 1.6"
  | VULKAN_1_3 => bytes "SPIR-V 1.6 (under Vulkan 1.3 semantics)"
  | VULKAN_1_4 => bytes "SPIR-V 1.6 (under Vulkan 1.4 semantics)"
  | WEBGPU_0 | MAX => []
  end.

(** spirv_target_env.cpp:91-134 spvVersionForTargetEnv, 
    spirv_constant.h SPV_SPIRV_VERSION_WORD *)
Definition version_word (major minor : N) : N := N.lor (N.shiftl major 16) (N.shiftl minor 8).
Definition version_for_target_env (e : target_env) : N :=
  match e with
  | UNIVERSAL_1_0 => version_word 1 0
  | VULKAN_1_0 => version_word 1 0
  | UNIVERSAL_1_1 => version_word 1 1
  | OPENCL_1_2 => version_word 1 0
  | OPENCL_EMBEDDED_1_2 => version_word 1 0
  | OPENCL_2_0 => version_word 1 0
  | OPENCL_EMBEDDED_2_0 => version_word 1 0
  | OPENCL_2_1 => version_word 1 0
  | OPENCL_EMBEDDED_2_1 => version_word 1 0
  | OPENCL_2_2 => version_word 1 2
  | OPENCL_EMBEDDED_2_2 => version_word 1 2
  | OPENGL_4_0 => version_word 1 0
  | OPENGL_4_1 => version_word 1 0
  | OPENGL_4_2 => version_word 1 0
  | OPENGL_4_3 => version_word 1 0
  | OPENGL_4_5 => version_word 1 0
  | UNIVERSAL_1_2 => version_word 1 2
  | UNIVERSAL_1_3 => version_word 1 3
  | VULKAN_1_1 => version_word 1 3
  | UNIVERSAL_1_4 => version_word 1 4
  | VULKAN_1_1_SPIRV_1_4 => version_word 1 4
  | UNIVERSAL_1_5 => version_word 1 5
  | VULKAN_1_2 => version_word 1 5
  | UNIVERSAL_1_6 => version_word 1 6
  | VULKAN_1_3 => version_word 1 6
  | VULKAN_1_4 => version_word 1 6
  | WEBGPU_0 | MAX => version_word 0 0
  end.

(** spirv_target_env.cpp:147-183 spvTargetEnvNameMap *)
Definition target_env_names : list (list N * target_env) :=
  [
(bytes "vulkan1.0", VULKAN_1_0);
   (bytes "vulkan1.1spv1.4", VULKAN_1_1_SPIRV_1_4);
   (bytes "vulkan1.1", VULKAN_1_1);
   (bytes "vulkan1.2", VULKAN_1_2);
   (bytes "vulkan1.3", VULKAN_1_3);
   (bytes "vulkan1.4", VULKAN_1_4);
   (bytes "spv1.0", UNIVERSAL_1_0);
   (bytes "spv1.1", UNIVERSAL_1_1);
   (bytes "spv1.2", UNIVERSAL_1_2);
   (bytes "spv1.3", UNIVERSAL_1_3);
   (bytes "spv1.4", UNIVERSAL_1_4);
   (bytes "spv1.5", UNIVERSAL_1_5);
   (bytes "spv1.6", UNIVERSAL_1_6);
   (bytes "opencl1.2embedded", OPENCL_EMBEDDED_1_2);
   (bytes "opencl1.2", OPENCL_1_2);
   (bytes "opencl2.0embedded", OPENCL_EMBEDDED_2_0);
   (bytes "opencl2.0", OPENCL_2_0);
   (bytes "opencl2.1embedded", OPENCL_EMBEDDED_2_1);
   (bytes "opencl2.1", OPENCL_2_1);
   (bytes "opencl2.2embedded", OPENCL_EMBEDDED_2_2);
   (bytes "opencl2.2", OPENCL_2_2);
   (bytes "opengl4.0", OPENGL_4_0);
   (bytes "opengl4.1", OPENGL_4_1);
   (bytes "opengl4.2", OPENGL_4_2);
   (bytes "opengl4.3", OPENGL_4_3);
   (bytes "opengl4.5", OPENGL_4_5)].

(** strncmp(s, b, strlen(b)) == 0 *)
Fixpoint is_prefix (b s : list N) : bool :=
  match b, s with
  | [], _ => true
  | x :: b', y :: s' => (x =? y) && is_prefix b' s'
  | _ :: _, [] => false
  end.

(** spirv_target_env.cpp:185-199 spvParseTargetEnv: the result and *env.  [None] is the null pointer. *)
Fixpoint find_name (s : list N) (table : list (list N * target_env)) : option target_env :=
  match table with
  | [] => None
  | (b, e) :: table' => if is_prefix b s then Some e else find_name s table'
  end.
Definition parse_target_env (s : option (list N)) : bool * target_env :=
  match s with
  | None => (false, UNIVERSAL_1_0)
  | Some s => match find_name s target_env_names with
              | Some e => (true, e)
              | None => (false, UNIVERSAL_1_0)
              end
  end.

(** spirv_target_env.cpp:138-142 ordered_universal_envs *)
Definition ordered_universal_envs : list target_env :=
  [UNIVERSAL_1_0; UNIVERSAL_1_1; UNIVERSAL_1_2; UNIVERSAL_1_3; UNIVERSAL_1_4; UNIVERSAL_1_5; UNIVERSAL_1_6].

(** spirv_target_env.cpp:211 kVersionPrefix *)
Definition version_prefix : list N := bytes "; Version: 1.".

(** spirv_target_env.cpp:218-221 the loop over j, given kVersionPrefix and the text from the first
    character to compare on: how many characters match *)
Fixpoint matching (prefix s : list N) : nat :=
  match prefix, s with
  | x :: prefix', y :: s' => if x =? y then S (matching prefix' s') else O
  | _, _ => O
  end.
(** spirv_target_env.cpp:242-245 skip until the next line; the text from the newline on *)
Fixpoint skip_line (s : list N) : list N :=
  match s with
  | [] => []
  | c :: s' => if c =? 10 then s else skip_line s'
  end.

(** spirv_target_env.cpp:201-253 spvReadEnvironmentFromText: *env if the result is true.  [s] is the text from
    index i on; the fuel is at least its length. *)
Fixpoint read_environment (fuel : nat) (s : list N) : option target_env :=
  match fuel with
  | O => None
  | S fuel' =>
      match s with
      | [] => None
      | c :: s' =>
          if c =? 59 then
            if (length s <=? 13)%nat then None
            else
              let j := S (matching (tl version_prefix) s') in
              let skipped := read_environment fuel' (tl (skip_line (skipn j s))) in
              if (j =? 13)%nat then
                let minor := nth 13 s 0 in
                let next_char := if (14 <? length s)%nat then nth 14 s 0 else 0 in
                if is_digit minor && negb (is_digit next_char) then
                  match nth_error ordered_universal_envs (N.to_nat (minor - 48)) with
                  | Some e => Some e
                  | None => skipped
                  end
                else skipped
              else skipped
          else if is_space c then read_environment fuel' s'
          else None
      end
  end.
Definition read_environment_from_text (text : list N) : option target_env :=
  read_environment (S (length text)) text.

(** spirv_target_env.cpp:255-272 ordered_vulkan_envs *)
Definition vulkan_ver (major minor : N) : N := N.lor (N.shiftl major 22) (N.shiftl minor 12).
Definition spirv_ver (major minor : N) : N := N.lor (N.shiftl major 16) (N.shiftl minor 8).
Definition ordered_vulkan_envs : list (target_env * N * N) :=
  [(VULKAN_1_0, vulkan_ver 1 0, spirv_ver 1 0);
   (VULKAN_1_1, vulkan_ver 1 1, spirv_ver 1 3);
   (VULKAN_1_1_SPIRV_1_4, vulkan_ver 1 1, spirv_ver 1 4);
   (VULKAN_1_2, vulkan_ver 1 2, spirv_ver 1 5);
   (VULKAN_1_3, vulkan_ver 1 3, spirv_ver 1 6);
   (VULKAN_1_4, vulkan_ver 1 4, spirv_ver 1 6)].
(** spirv_target_env.cpp:274-283 spvParseVulkanEnv *)
Fixpoint find_vulkan (table : list (target_env * N * N)) (vulkan spirv : N) : option target_env :=
  match table with
  | [] => None
  | (e, v, s) :: table' => if (vulkan <=? v) && (spirv <=? s) then Some e else find_vulkan table' vulkan spirv
  end.
Definition parse_vulkan_env (vulkan spirv : N) : option target_env := find_vulkan ordered_vulkan_envs vulkan spirv.

(** spirv_target_env.cpp:285-323 spvIsVulkanEnv *)
Definition is_vulkan_env (e : target_env) : bool :=
  match e with
  | VULKAN_1_0 | VULKAN_1_1 | VULKAN_1_1_SPIRV_1_4 | VULKAN_1_2 | VULKAN_1_3 | VULKAN_1_4 => true
  | UNIVERSAL_1_0 | UNIVERSAL_1_1 | OPENCL_1_2 | OPENCL_EMBEDDED_1_2 | OPENCL_2_0 | OPENCL_EMBEDDED_2_0 | OPENCL_2_1 | OPENCL_EMBEDDED_2_1 | OPENCL_2_2 | OPENCL_EMBEDDED_2_2 | OPENGL_4_0 | OPENGL_4_1 | OPENGL_4_2 | OPENGL_4_3 | OPENGL_4_5 | UNIVERSAL_1_2 | UNIVERSAL_1_3 | WEBGPU_0 | UNIVERSAL_1_4 | UNIVERSAL_1_5 | UNIVERSAL_1_6 | MAX => false
  end.
(** spirv_target_env.cpp:325-363 spvIsOpenCLEnv *)
Definition is_opencl_env (e : target_env) : bool :=
  match e with
  | OPENCL_1_2 | OPENCL_EMBEDDED_1_2 | OPENCL_2_0 | OPENCL_EMBEDDED_2_0 | OPENCL_2_1 | OPENCL_EMBEDDED_2_1 | OPENCL_2_2 | OPENCL_EMBEDDED_2_2 => true
  | UNIVERSAL_1_0 | VULKAN_1_0 | UNIVERSAL_1_1 | OPENGL_4_0 | OPENGL_4_1 | OPENGL_4_2 | OPENGL_4_3 | OPENGL_4_5 | UNIVERSAL_1_2 | UNIVERSAL_1_3 | VULKAN_1_1 | WEBGPU_0 | UNIVERSAL_1_4 | VULKAN_1_1_SPIRV_1_4 | UNIVERSAL_1_5 | VULKAN_1_2 | UNIVERSAL_1_6 | VULKAN_1_3 | VULKAN_1_4 | MAX => false
  end.
(** spirv_target_env.cpp:365-403 spvIsOpenGLEnv *)
Definition is_opengl_env (e : target_env) : bool :=
  match e with
  | OPENGL_4_0 | OPENGL_4_1 | OPENGL_4_2 | OPENGL_4_3 | OPENGL_4_5 => true
  | UNIVERSAL_1_0 | VULKAN_1_0 | UNIVERSAL_1_1 | OPENCL_1_2 | OPENCL_EMBEDDED_1_2 | OPENCL_2_0 | OPENCL_EMBEDDED_2_0 | OPENCL_2_1 | OPENCL_EMBEDDED_2_1 | OPENCL_2_2 | OPENCL_EMBEDDED_2_2 | UNIVERSAL_1_2 | UNIVERSAL_1_3 | VULKAN_1_1 | WEBGPU_0 | UNIVERSAL_1_4 | VULKAN_1_1_SPIRV_1_4 | UNIVERSAL_1_5 | VULKAN_1_2 | UNIVERSAL_1_6 | VULKAN_1_3 | VULKAN_1_4 | MAX => false
  end.
(** spirv_target_env.cpp:405-439 spvIsValidEnv *)
Definition is_valid_env (e : target_env) : bool :=
  match e with
  | UNIVERSAL_1_0 | VULKAN_1_0 | UNIVERSAL_1_1 | OPENCL_1_2 | OPENCL_EMBEDDED_1_2 | OPENCL_2_0 | OPENCL_EMBEDDED_2_0 | OPENCL_2_1 | OPENCL_EMBEDDED_2_1 | OPENCL_2_2 | OPENCL_EMBEDDED_2_2 | OPENGL_4_0 | OPENGL_4_1 | OPENGL_4_2 | OPENGL_4_3 | OPENGL_4_5 | UNIVERSAL_1_2 | UNIVERSAL_1_3 | VULKAN_1_1 | UNIVERSAL_1_4 | VULKAN_1_1_SPIRV_1_4 | UNIVERSAL_1_5 | VULKAN_1_2 | UNIVERSAL_1_6 | VULKAN_1_3 | VULKAN_1_4 => true
  | WEBGPU_0 | MAX => false
  end.
(** spirv_target_env.cpp:441-485 spvLogStringForEnv *)
Definition log_string_for_env (e : target_env) : list N :=
  match e with
  | OPENCL_1_2 | OPENCL_EMBEDDED_1_2 | OPENCL_2_0 | OPENCL_EMBEDDED_2_0 | OPENCL_2_1 | OPENCL_EMBEDDED_2_1 | OPENCL_2_2 | OPENCL_EMBEDDED_2_2 => bytes "OpenCL"
  | OPENGL_4_0 | OPENGL_4_1 | OPENGL_4_2 | OPENGL_4_3 | OPENGL_4_5 => bytes "OpenGL"
  | VULKAN_1_0 | VULKAN_1_1 | VULKAN_1_1_SPIRV_1_4 | VULKAN_1_2 | VULKAN_1_3 | VULKAN_1_4 => bytes "Vulkan"
  | UNIVERSAL_1_0 | UNIVERSAL_1_1 | UNIVERSAL_1_2 | UNIVERSAL_1_3 | UNIVERSAL_1_4 | UNIVERSAL_1_5 | UNIVERSAL_1_6 => bytes "Universal"
  | WEBGPU_0 | MAX => bytes "Unknown"
  end.
