(** Specification vocabulary for package asm: the eBPF instruction set encoding, written down without
    reference to the model's functions (only its [instr] record and Go integer ranges are used). *)
From Coq Require Import String.
From Verif Require Import Base.GoInt Asm.Model.
Open Scope Z_scope.

(** A raw 64-bit BPF instruction as seen by the kernel: struct bpf_insn
    { u8 code; u8 dst:4, src:4; s16 off; s32 imm; } *)
Record raw := mkRaw { r_op : Z; r_dst : Z; r_src : Z; r_off : Z; r_imm : Z }.

Definition raw_ok (w : raw) : Prop :=
  0 <= r_op w < 256 /\ 0 <= r_dst w < 16 /\ 0 <= r_src w < 16 /\
  in_s 16 (r_off w) /\ in_s 32 (r_imm w).

(** Its 8 bytes. The C bitfields dst:4, src:4 are allocated from the low bits on little endian and from
    the high bits on big endian machines. *)
Definition raw_bytes (bo : byteorder) (w : raw) : list Z :=
  [ r_op w;
    match bo with LE => r_dst w + 16 * r_src w | BE => 16 * r_dst w + r_src w end ]
  ++ put bo 2 (r_off w mod 2 ^ 16) ++ put bo 4 (r_imm w mod 2 ^ 32).

Definition stream_bytes (bo : byteorder) (ws : list raw) : list Z := concat (map (raw_bytes bo) ws).

(** Opcode classification, by the bit layout of the instruction set documentation. *)
Definition cls (op : Z) := op mod 8.
Definition is_alu (op : Z) : Prop := cls op = 4 \/ cls op = 7.
Definition is_call (op : Z) : Prop := cls op = 5 /\ (op / 16) mod 16 = 8.
Definition is_atomic (op : Z) : Prop := cls op = 3 /\ (op / 32) mod 8 = 6.
Definition is_dword (op : Z) : Prop := op = 0x18.
Definition is_builtin (op dst src : Z) : Prop := is_call op /\ dst = 0 /\ src = 0.

(** Extended ALU operations: (bits 8 and 9 of the library opcode, base operation) -> kernel offset.
    BPF_DIV = 3, BPF_MOD = 9, BPF_MOV = 0xb. *)
Inductive ext_alu : Z -> Z -> Z -> Prop :=
| ext_sdiv : ext_alu 1 3 1
| ext_smod : ext_alu 1 9 1
| ext_movsx8 : ext_alu 1 0xb 8
| ext_movsx16 : ext_alu 2 0xb 16
| ext_movsx32 : ext_alu 3 0xb 32.

(** Tag of a platform in the upper bits of a helper constant *)
Definition plat_tag (p : plat) : option Z :=
  match p with PLinux => Some 0 | PWindows => Some 1 | POther => None end.

(** Value ranges given by the Go types of the fields *)
Definition well_typed (i : instr) : Prop :=
  in_u 32 (OpCode i) /\ in_u 8 (Dst i) /\ in_u 8 (Src i) /\ in_s 16 (Offset i) /\ in_s 64 (Constant i).

Definition regs_ok (i : instr) : Prop := 0 <= Dst i < 16 /\ 0 <= Src i < 16 /\ in_s 16 (Offset i).

(** The instruction without metadata. *)
Definition strip (i : instr) : instr :=
  mkIns (OpCode i) (Dst i) (Src i) (Offset i) (Constant i) EmptyString EmptyString None.

(** [encodes native i ws]: the library instruction [i] is represented on the wire by [ws]. *)
Inductive encodes (native : plat) (i : instr) : list raw -> Prop :=
| enc_builtin t n :
    regs_ok i -> is_builtin (OpCode i) (Dst i) (Src i) -> 0 <= OpCode i < 256 ->
    plat_tag native = Some t -> 0 <= n < 2 ^ 28 -> Constant i = t * 2 ^ 28 + n ->
    encodes native i [mkRaw (OpCode i) 0 0 (Offset i) n]
| enc_builtin_negative :
    (* placeholders: negative constants are not tagged *)
    regs_ok i -> is_builtin (OpCode i) (Dst i) (Src i) -> 0 <= OpCode i < 256 ->
    native = PLinux -> - 2 ^ 31 <= Constant i < - 2 ^ 31 + 2 ^ 28 ->
    encodes native i [mkRaw (OpCode i) 0 0 (Offset i) (Constant i)]
| enc_alu :
    regs_ok i -> is_alu (OpCode i) -> 0 <= OpCode i < 256 ->
    Offset i = 0 -> in_s 32 (Constant i) ->
    encodes native i [mkRaw (OpCode i) (Dst i) (Src i) 0 (Constant i)]
| enc_alu_ext ext base off op8 :
    regs_ok i -> is_alu op8 -> 0 <= op8 < 256 -> ext_alu ext base off ->
    op8 / 16 = base -> OpCode i = ext * 256 + op8 ->
    Offset i = 0 -> in_s 32 (Constant i) ->
    encodes native i [mkRaw op8 (Dst i) (Src i) off (Constant i)]
| enc_atomic op8 :
    regs_ok i -> is_atomic op8 -> 0 <= op8 < 256 -> in_s 32 (Constant i) ->
    (* the atomic operation is the low 9 bits of the immediate and bits 8..16 of the opcode *)
    OpCode i = (Constant i mod 512) * 256 + op8 ->
    encodes native i [mkRaw op8 (Dst i) (Src i) (Offset i) (Constant i)]
| enc_dword lo hi :
    regs_ok i -> is_dword (OpCode i) -> in_s 32 lo -> in_s 32 hi ->
    Constant i = hi * 2 ^ 32 + lo mod 2 ^ 32 ->
    encodes native i [mkRaw 0x18 (Dst i) (Src i) (Offset i) lo; mkRaw 0 0 0 0 hi]
| enc_plain :
    regs_ok i -> ~ is_builtin (OpCode i) (Dst i) (Src i) -> ~ is_alu (OpCode i) ->
    ~ is_atomic (OpCode i) -> ~ is_dword (OpCode i) ->
    0 <= OpCode i < 256 -> in_s 32 (Constant i) ->
    encodes native i [mkRaw (OpCode i) (Dst i) (Src i) (Offset i) (Constant i)].

(** An instruction whose fields are those of a raw instruction. *)
Definition verbatim (w : raw) : instr :=
  mkIns (r_op w) (r_dst w) (r_src w) (r_off w) (r_imm w) EmptyString EmptyString None.

(** Raw instructions for which decoding loses information: ALU instructions whose offset the decoder
    does not interpret, and negative helper numbers which look like foreign platform tags. *)
Definition lossy (native : plat) (w : raw) : Prop :=
  (is_alu (r_op w) /\ r_off w <> 0 /\
   ~ (exists ext, ext_alu ext (r_op w / 16) (r_off w))) \/
  (is_builtin (r_op w) (r_dst w) (r_src w) /\ r_imm w < 0 /\
   ~ (native = PLinux /\ r_imm w < - 2 ^ 31 + 2 ^ 28)).

(** Raw offset of position [k] in a stream: the number of 8 byte slots before it. *)
Definition slots (i : instr) : Z := if OpCode i =? 0x18 then 2 else 1.
Fixpoint raw_offset (l : list instr) (k : nat) : Z :=
  match k, l with
  | S k', i :: l' => slots i + raw_offset l' k'
  | _, _ => 0
  end.

(** A pending symbolic reference. Calls of bpf functions (src = 1), loads of function pointers (src = 4) and
    32-bit gotos carry it in the 32/64-bit immediate, other jumps in the 16 bit offset; -1 marks it as
    unresolved. *)
Definition imm_ref (i : instr) : Prop :=
  (is_call (OpCode i) /\ Src i = 1) \/ (is_dword (OpCode i) /\ Src i = 4) \/ OpCode i = 0x06.
Definition jump_class (i : instr) : Prop := cls (OpCode i) = 5 \/ cls (OpCode i) = 6.

Definition map_load (i : instr) : Prop := is_dword (OpCode i) /\ (Src i = 1 \/ Src i = 2).

Fixpoint total_slots (l : list instr) : Z :=
  match l with [] => 0 | i :: l' => slots i + total_slots l' end.


Definition decoded (p : plat) (i : instr) (ws : list raw) : Prop :=
  encodes p i ws \/ exists w, ws = [w] /\ lossy p w /\ i = verbatim w.


(** pending references *)
Definition pending_imm (i : instr) : Prop :=
  Reference i <> EmptyString /\ imm_ref i /\ Constant i = -1.
Definition pending_off (i : instr) : Prop :=
  Reference i <> EmptyString /\ ~ (imm_ref i /\ Constant i = -1) /\ jump_class i /\ Offset i = -1.

(** the symbol [s] is defined at index [t] *)
Definition defines (l : list instr) (s : string) (t : nat) : Prop :=
  exists i, nth_error l t = Some i /\ Symbol i = s.

(** no non-empty symbol occurs twice *)
Definition unique_symbols (l : list instr) : Prop :=
  forall a b i j, nth_error l a = Some i -> nth_error l b = Some j ->
                  Symbol i <> EmptyString -> Symbol i = Symbol j -> a = b.

(** the 8 byte slot number [n] of a byte string *)
Definition word_at (bo : byteorder) (bs : list Z) (n : Z) (w : raw) : Prop :=
  raw_ok w /\ firstn 8 (skipn (Z.to_nat (8 * n)) bs) = raw_bytes bo w.

(** indices (starting at [i]) of the instructions referencing [s] *)
Fixpoint ref_indices (s : string) (i : Z) (l : list instr) : list Z :=
  match l with
  | [] => []
  | x :: l' => (if String.eqb (Reference x) s then [i] else []) ++ ref_indices s (i + 1) l'
  end.

Definition str_le (a b : string) : Prop := String.leb a b = true.

