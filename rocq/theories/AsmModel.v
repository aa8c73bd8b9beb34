(** Model of the assembly printer, source/codegen/amd64/asmgen.c, and of the data part of
    a module, source/codegen/amd64/amd64-sysv.c:191-275, with the directives that
    source/codegen/amd64/system-v/abi/static_data.c prints for the pieces of an object.

    The output is a list of bytes.  printf conversions of integers are modelled for
    values in their range; NULL checks and output errors are left out.  enable_comments
    and enable_identation are true, as kefir_amd64_gas_gen_init sets them (asmgen.c:352-380). *)

From Coq Require Import ZArith Bool List String.
From Verif Require Import LexModel Bits IrType LayoutModel IrData StaticData.
Import ListNotations.
Open Scope Z_scope.

(** ** printf *)

(** A digit of a number; %x prints small letters *)
Definition digit_char (d : Z) : Z := if d <? 10 then 48 + d else 87 + d.
Fixpoint digits (base : Z) (fuel : nat) (v : Z) : list Z :=
  match fuel with
  | O => []
  | S fuel => if v <? base then [digit_char v] else digits base fuel (v / base) ++ [digit_char (v mod base)]
  end.
(** %u, %lu, %zu; the values have at most 64 bits *)
Definition print_unsigned (v : Z) : list Z := digits 10 20 v.
(** %ld *)
Definition print_signed (v : Z) : list Z := if v <? 0 then 45 :: print_unsigned (- v) else print_unsigned v.
(** %0Nx *)
Definition print_hex (width : nat) (v : Z) : list Z :=
  let d := digits 16 16 v in repeat 48 (width - List.length d) ++ d.
(** %03o of an unsigned char *)
Definition print_octal (v : Z) : list Z := [48 + v / 64; 48 + v / 8 mod 8; 48 + v mod 8].

(** ** struct kefir_amd64_asmgen *)

(** kefir_amd64_asmgen_datawidth_t, headers/kefir/codegen/amd64/asmgen.h *)
Inductive width := WByte | WWord | WDouble | WQuad | WAscii.

Inductive call :=
  | CNewline | CComment (t : list Z) | CLabel (t : list Z) | CGlobal (t : list Z) | CExternal (t : list Z)
  | CSection (t : list Z) | CInstr (t : list Z) | CRaw (w : width) | CMul (n : Z) (w : width) | CZero (n : Z)
  | CArg (t : list Z) | CSymbol (t : list Z) | CString (t : list Z) | CClose.

Record asmgen := { g_empty : bool; g_arguments : nat; g_out : list Z }.

Definition put (t : list Z) (g : asmgen) : asmgen :=
  {| g_empty := g_empty g; g_arguments := g_arguments g; g_out := g_out g ++ t |}.
(** asmgen.c:56-59 and the same in the other functions that start a line *)
Definition start (g : asmgen) : asmgen :=
  {| g_empty := false; g_arguments := g_arguments g; g_out := g_out g ++ (if g_empty g then [] else [10]) |}.
Definition clear (g : asmgen) : asmgen := {| g_empty := g_empty g; g_arguments := 0; g_out := g_out g |}.
(** asmgen.c:31 *)
Definition indentation : list Z := text "    ".
(** asmgen.c:235-240 *)
Definition separator (g : asmgen) : asmgen :=
  {| g_empty := g_empty g; g_arguments := S (g_arguments g);
     g_out := g_out g ++ (if (0 <? g_arguments g)%nat then text ", " else text " ") |}.

(** amd64_rawdata, asmgen.c:151-171 *)
Definition directive (w : width) : list Z :=
  match w with
  | WByte => text ".byte" | WWord => text ".word" | WDouble => text ".long" | WQuad => text ".quad" | WAscii => text ".ascii"
  end.
(** amd64_multrawdata, asmgen.c:190-208; None is an error *)
Definition fill_size (w : width) : option (list Z) :=
  match w with
  | WByte => Some (text "1") | WWord => Some (text "2") | WDouble => Some (text "4") | WQuad => Some (text "8") | WAscii => None
  end.

(** amd64_symbol_arg, asmgen.c:261-271; strcasecmp of ASCII letters *)
Definition lower (c : Z) : Z := if (65 <=? c) && (c <=? 90) then c + 32 else c.
Definition escaped_symbols : list (list Z) := [text "mod"].
Definition symbol_text (t : list Z) : list Z :=
  if existsb (fun e => if list_eq_dec Z.eq_dec (map lower t) e then true else false) escaped_symbols then 36 :: t else t.

Section Print.
(** isprint of the locale *)
Variable isprint : Z -> bool.

(** amd64_string_literal, asmgen.c:288-338; a char as an unsigned byte *)
Definition string_char (c : Z) : list Z :=
  if c =? 0 then text "\000"
  else if c =? 34 then [92; 34]
  else if c =? 92 then [92; 92]
  else if c =? 7 then 92 :: print_octal 7
  else if c =? 8 then text "\b"
  else if c =? 9 then text "\t"
  else if c =? 10 then text "\n"
  else if c =? 11 then 92 :: print_octal 11
  else if c =? 12 then text "\f"
  else if c =? 13 then text "\r"
  else if isprint c then [c] else 92 :: print_octal c.

Definition step (c : call) (g : asmgen) : option asmgen :=
  match c with
  (* amd64_newline, asmgen.c:40-48, with count 1 *)
  | CNewline => Some (put [10] g)
  (* amd64_comment, :50-66 *)
  | CComment t => Some (put (text "# " ++ t) (start g))
  (* amd64_label, :68-82 *)
  | CLabel t => Some (put (t ++ [58]) (start g))
  (* amd64_global, :84-98 *)
  | CGlobal t => Some (put (text ".global " ++ t) (start g))
  (* amd64_external, :100-110 *)
  | CExternal t => Some (put (text ".extern " ++ t) (start g))
  (* amd64_section, :112-122 *)
  | CSection t => Some (put (text ".section " ++ t) (start g))
  (* amd64_instr, :124-138 *)
  | CInstr t => Some (clear (put (indentation ++ t) (start g)))
  (* amd64_rawdata, :140-174 *)
  | CRaw w => Some (clear (put (indentation ++ directive w) (start g)))
  (* amd64_multrawdata, :176-212 *)
  | CMul n w =>
    match fill_size w with
    | Some t => Some (clear (put (indentation ++ text ".fill " ++ print_unsigned n ++ text ", " ++ t ++ text ",") (start g)))
    | None => None
    end
  (* amd64_zerodata, :214-229 *)
  | CZero n => Some (clear (put (indentation ++ text ".zero " ++ print_unsigned n) (start g)))
  (* amd64_argument, :231-246, the arguments being formatted *)
  | CArg t => Some (put t (separator g))
  (* amd64_symbol_arg, :248-272 *)
  | CSymbol t => Some (put (symbol_text t) (separator g))
  (* amd64_string_literal, :274-341 *)
  | CString t => Some (put (34 :: flat_map string_char t ++ [34]) (separator g))
  (* amd64_close, :343-350 *)
  | CClose => Some (put [10] g)
  end.
Fixpoint run (l : list call) (g : asmgen) : option asmgen :=
  match l with
  | [] => Some g
  | c :: l => match step c g with Some g => run l g | None => None end
  end.
End Print.

(** kefir_amd64_gas_gen_init, asmgen.c:352-380 *)
Definition gas_init : asmgen := {| g_empty := true; g_arguments := 0; g_out := [] |}.

(** ** The pieces of an object, static_data.c *)

Definition string_label (id : Z) : list Z := text "__kefirrt_string_literal" ++ print_unsigned id.
Definition symbol_name (s : sym) : list Z := match s with SName n => n | SString id => string_label id end.

Inductive piece :=
  | PNumber (w : width) (value : Z) | PBits (bits : Z) (value : Z) | PAddress (s : sym) (off : Z)
  | PLongDouble (value : Z) | PBytes (bytes : list Z) | PZeros (n : Z).

Definition size_of (w : width) : nat := match w with WByte => 1 | WWord => 2 | WDouble => 4 | WQuad => 8 | WAscii => 0 end.
Definition hex_arg (n : nat) (v : Z) : call := CArg (text "0x" ++ print_hex (2 * n) (u (8 * Z.of_nat n) v)).

Definition piece_calls (p : piece) : list call :=
  match p with
  (* static_data.c:147-170, :207-211, :277-278, :319-320 *)
  | PNumber w v => [CRaw w; hex_arg (size_of w) v]
  (* static_data.c:172-182 *)
  | PBits bits v =>
    flat_map (fun i => [CRaw WByte; hex_arg 1 (Z.shiftr v (8 * Z.of_nat i))]) (seq 0 (Z.to_nat (bits / 8 + (if bits mod 8 =? 0 then 0 else 1))))
  (* static_data.c:100-109, :122-132, :214-236 *)
  | PAddress s off =>
    [CRaw WQuad;
     CArg (if 0 <? off then symbol_name s ++ text " + " ++ print_signed off
           else if off <? 0 then symbol_name s ++ text " " ++ print_signed off
           else symbol_name s)]
  (* static_data.c:361-363 *)
  | PLongDouble v => [CRaw WQuad; hex_arg 8 v; hex_arg 8 (Z.shiftr v 64)]
  (* dump_binary, static_data.c:423-430 *)
  | PBytes bs => CRaw WByte :: map (hex_arg 1) bs
  (* static_data.c:55, 65, 469, 543, 561, 647 *)
  | PZeros n => [CZero n]
  end.

(** integral_static_data, static_data.c:74-189: the directive of a value of an integral type *)
Definition integral_piece (c : tcode) (param : Z) (v : dval) : option piece :=
  match v with
  | VPtr r o => match c with CLong | CInt64 => Some (PAddress (SName r) o) | _ => None end
  | VStrPtr i o => match c with CLong | CInt64 => Some (PAddress (SString i) o) | _ => None end
  | VUndef | VInt _ =>
    let value := match v with VInt z => z | _ => 0 end in
    match c with
    | CBool | CChar | CInt8 => Some (PNumber WByte value)
    | CShort | CInt16 => Some (PNumber WWord value)
    | CInt | CInt32 => Some (PNumber WDouble value)
    | CLong | CInt64 => Some (PNumber WQuad value)
    | CBits => if 64 <? param then None else Some (PBits param value)
    | _ => None
    end
  | _ => None
  end.
(** word_static_data, float32_static_data, float64_static_data, long_double_static_data,
    static_data.c:191-372 *)
Definition word_piece (v : dval) : option piece :=
  match v with
  | VUndef => Some (PNumber WQuad 0)
  | VInt z => Some (PNumber WQuad z)
  | VPtr r o => Some (PAddress (SName r) o)
  | VStrPtr i o => Some (PAddress (SString i) o)
  | _ => None
  end.
Definition f32_piece (v : dval) : option piece :=
  match v with VUndef => Some (PNumber WDouble 0) | VF32 b => Some (PNumber WDouble b) | _ => None end.
Definition f64_piece (v : dval) : option piece :=
  match v with VUndef => Some (PNumber WQuad 0) | VF64 b => Some (PNumber WQuad b) | _ => None end.
Definition ld_piece (v : dval) : option piece :=
  match v with VUndef => Some (PLongDouble 0) | VLongDouble b => Some (PLongDouble b) | _ => None end.

(** A variable of the module: what kefir_amd64_sysv_static_data has of it *)
Record object := { o_name : list Z; o_align : Z; o_pieces : list piece; o_thread : bool; o_defined : bool }.
(** kefir_amd64_sysv_static_data, static_data.c:587-653, the visitor being replaced by the
    pieces it prints *)
Definition object_calls (o : object) : list call :=
  (if 1 <? o_align o then [CInstr (text ".align"); CArg (print_unsigned (o_align o))] else []) ++
  CLabel (o_name o) :: flat_map piece_calls (o_pieces o) ++ [CNewline].

(** A string literal of the module: its identifier, type, public and content, in units *)
Inductive literal_type := LMultibyte | LUnicode16 | LUnicode32.
Record literal := { s_id : Z; s_type : literal_type; s_public : bool; s_units : list Z }.
(** The body of the loop of cg_translate_strings, amd64-sysv.c:214-236 *)
Definition literal_calls (s : literal) : list call :=
  CLabel (string_label (s_id s)) ::
  match s_type s with
  | LMultibyte => [CRaw WAscii; CString (s_units s)]
  | LUnicode16 => CRaw WWord :: map (fun c => CArg (print_unsigned c)) (s_units s)
  | LUnicode32 => CRaw WDouble :: map (fun c => CArg (print_unsigned c)) (s_units s)
  end.
(** cg_translate_strings, amd64-sysv.c:191-240 *)
Definition translate_strings (l : list literal) : list call :=
  match filter s_public l with
  | [] => []
  | l => CSection (text ".rodata") :: flat_map literal_calls l
  end.
(** cg_translate_data_storage, amd64-sysv.c:242-265 *)
Definition translate_storage (thread defined : bool) (section : list Z) (l : list object) : list call :=
  match filter (fun o => Bool.eqb (o_thread o) thread && Bool.eqb (o_defined o) defined) l with
  | [] => []
  | l => CSection section :: flat_map object_calls l
  end.
(** cg_translate_data, amd64-sysv.c:267-275 *)
Definition translate_data (objects : list object) (strings : list literal) : list call :=
  translate_storage false true (text ".data") objects ++ translate_storage true true (text ".tdata") objects ++
  translate_storage false false (text ".bss") objects ++ translate_storage true false (text ".tbss") objects ++
  translate_strings strings.
