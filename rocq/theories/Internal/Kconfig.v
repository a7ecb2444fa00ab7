(** Model of internal/kconfig/kconfig.go and of resolveKconfig (collection.go:714-805). *)
From Verif.Base Require Import GoInt.
From Verif.Internal Require Import Kallsyms.

(** ** strconv *)
Inductive nerr := NSyntax | NRange | NBitSize.
Definition lowerCase (c : Z) : Z := Z.lor c 32.
Definition digitOf (c : Z) : option Z :=
  if (48 <=? c) && (c <=? 57) then Some (c - 48)
  else if (97 <=? lowerCase c) && (lowerCase c <=? 122) then Some (lowerCase c - 97 + 10) else None.
(** the loop of strconv.ParseUint on uint64; [cutoff] is the least number such that cutoff*base > maxUint64.  Simplification:
    underscores, which Go admits between digits if the base is 0, are errors. *)
Fixpoint parseDigits (base maxVal n : Z) (l : str) : res nerr Z :=
  match l with
  | [] => Ok n
  | c :: l' =>
      match digitOf c with
      | None => Err NSyntax
      | Some d =>
          if base <=? d then Err NSyntax
          else if (2 ^ 64 - 1) / base + 1 <=? n then Err NRange
          else let n := u64 (n * base) in
               let n1 := u64 (n + d) in
               if (n1 <? n) || (maxVal <? n1) then Err NRange
               else parseDigits base maxVal n1 l'
      end
  end.
(** the base given by a prefix, and the rest *)
Definition basePrefix (s : str) : Z * str :=
  match s with
  | 48 :: c :: (_ :: _) as r => 
      let t := tl (tl s) in
      if lowerCase c =? 98 then (2, t) else if lowerCase c =? 111 then (8, t) else if lowerCase c =? 120 then (16, t) else (8, tl s)
  | 48 :: t => (8, t)
  | _ => (10, s)
  end.
(** strconv.ParseUint(s, 0, bitSize) on 64 bit platforms *)
Definition ParseUint (s : str) (bitSize : Z) : res nerr Z :=
  match s with
  | [] => Err NSyntax
  | _ =>
      let (base, t) := basePrefix s in
      let bitSize := if bitSize =? 0 then 64 else bitSize in
      if (bitSize <? 0) || (64 <? bitSize) then Err NBitSize
      else parseDigits base (2 ^ bitSize - 1) 0 t
  end.
(** strconv.ParseInt(s, 0, bitSize) *)
Definition ParseInt (s : str) (bitSize : Z) : res nerr Z :=
  match s with
  | [] => Err NSyntax
  | c :: s' =>
      let neg := c =? 45 in
      let t := if (c =? 43) || (c =? 45) then s' else s in
      match ParseUint t bitSize with
      | Err e => Err e
      | Ok un =>
          let bitSize := if bitSize =? 0 then 64 else bitSize in
          let cutoff := 2 ^ (bitSize - 1) in
          if negb neg && (cutoff <=? un) then Err NRange
          else if neg && (cutoff <? un) then Err NRange
          else Ok (if neg then - un else un)
      end
  end.

(** ** Parse *)
Inductive perr := PNoSeparator | PNoValue | PRead.
Definition cmap := list (str * str).
Fixpoint cget (m : cmap) (n : str) : option str := match m with [] => None | (k, v) :: m' => if str_eqb k n then Some v else cget m' n end.
Definition mem (l : list str) (n : str) : bool := existsb (str_eqb n) l.
Fixpoint hasPrefix (p l : str) : bool := match p, l with [], _ => true | a :: p', b :: l' => (a =? b) && hasPrefix p' l' | _, [] => false end.
(** "CONFIG_" *)
Definition CONFIG : str := [67; 79; 78; 70; 73; 71; 95].
(** kconfig.go:63-95 processKconfigLine *)
Definition processLine (line : str) (m : cmap) (filter : option (list str)) : res perr cmap :=
  if negb (hasPrefix CONFIG line) then Ok m
  else match cut 61 line with
       | None => Err PNoSeparator
       | Some (key, value) =>
           match value with
           | [] => Err PNoValue
           | _ =>
               if match filter with None => false | Some f => negb (mem f key) end then Ok m
               else match cget m key with Some _ => Ok m | None => Ok (m ++ [(key, value)]) end
           end
       end.
(** kconfig.go:22-58 Parse: the file's contents after decompression.  [rerr]: reading fails after them.  Closing the
    decompressor isn't modelled. *)
Fixpoint parseLines (ls : list str) (m : cmap) (filter : option (list str)) : res perr (cmap * bool) :=
  match ls with
  | [] => Ok (m, false)
  | l :: ls' =>
      match processLine l m filter with
      | Err e => Err e
      | Ok m => if match filter with None => false | Some f => Nat.eqb (length m) (length f) end then Ok (m, true) else parseLines ls' m filter
      end
  end.
Definition Parse (contents : str) (rerr : bool) (filter : option (list str)) : res perr cmap :=
  let (ls, tooLong) := scan [] contents in
  match parseLines ls [] filter with
  | Err e => Err e
  | Ok (m, true) => Ok m
  | Ok (m, false) => if tooLong || rerr then Err PRead else Ok m
  end.

(** ** PutValue *)
(** the types that matter; [KWrap]: typedefs and qualifiers, which UnderlyingType skips (its limit of 32 isn't modelled) *)
Inductive kty :=
| KInt (size enc : Z)
| KEnum (name : str) (size : Z)
| KArray (elem : kty) (nelems : Z)
| KWrap (t : kty)
| KOther.
Fixpoint underlying (t : kty) : kty := match t with KWrap t => underlying t | _ => t end.
(** btf/types.go:119-123 *)
Definition encSigned := 1. Definition encChar := 2. Definition encBool := 4.
(** [VPanic]: index or slice out of range *)
Inductive verr := VType | VSize | VValue | VNumber (e : nerr) | VBool | VFit | VRepresent | VPanic.

(** writes at the start of a slice *)
Definition overwrite (data b : list Z) : list Z := b ++ skipn (length b) data.

(** kconfig.go:222-263 PutInteger; [n] is a uint64 *)
Definition PutInteger (bo : byteorder) (data : list Z) (size enc n : Z) : res verr (list Z) :=
  if (enc =? encBool) && (1 <? n) then Err VBool
  else if Z.of_nat (length data) <? size then Err VFit
  else
    let signed k := (enc =? encSigned) && ((2 ^ (k - 1) - 1 <? i64 n) || (i64 n <? - 2 ^ (k - 1))) in
    if size =? 1 then if signed 8 then Err VRepresent else Ok (overwrite data [u8 n])
    else if size =? 2 then if signed 16 then Err VRepresent else Ok (overwrite data (put bo 2 (u16 n)))
    else if size =? 4 then if signed 32 then Err VRepresent else Ok (overwrite data (put bo 4 (u32 n)))
    else if size =? 8 then Ok (overwrite data (put bo 8 n))
    else Err VSize.
(** kconfig.go:191-217 putValueNumber; sizeInBits is a uint32 *)
Definition putValueNumber (bo : byteorder) (data : list Z) (t : kty) (value : str) : res verr (list Z) :=
  match t with
  | KInt size enc =>
      match (if enc =? encSigned then ParseInt value (u32 (size * 8)) else ParseUint value (u32 (size * 8))) with
      | Err e => Err (VNumber e)
      | Ok n => PutInteger bo data size enc (u64 n)
      end
  | _ => Err VType
  end.
(** "y", "m", "n" and the enum's name *)
Definition Y : str := [121]. Definition M : str := [109]. Definition N : str := [110].
Definition TRISTATE : str := [108;105;98;98;112;102;95;116;114;105;115;116;97;116;101].
(** kconfig.go:120-163 putValueTri *)
Definition putValueTri (bo : byteorder) (data : list Z) (t : kty) (value : str) : res verr (list Z) :=
  match t with
  | KInt size enc =>
      if negb (enc =? encBool) then Err VType
      else if negb (size =? 1) then Err VSize
      else match data with
           | [] => if str_eqb value M then Err VValue else Err VPanic
           | _ => if str_eqb value Y then Ok (overwrite data [1]) else if str_eqb value N then Ok (overwrite data [0]) else Err VValue
           end
  | KEnum name size =>
      if negb (str_eqb name TRISTATE) then Err VType
      else if negb (Z.of_nat (length data) =? 4) then Err VSize
      else if str_eqb value Y then Ok (put bo 4 1) else if str_eqb value M then Ok (put bo 4 2) else if str_eqb value N then Ok (put bo 4 0) else Err VValue
  | _ => Err VType
  end.
(** strings.Trim of quotes *)
Fixpoint trimQuotesLeft (l : str) : str := match l with b :: l' => if b =? 34 then trimQuotesLeft l' else l | [] => [] end.
Definition trimQuotes (l : str) : str := rev (trimQuotesLeft (rev (trimQuotesLeft l))).
(** copy(data, str) *)
Definition copyTo (data s : list Z) : list Z := let k := Nat.min (length data) (length s) in firstn k s ++ skipn k data.
(** kconfig.go:165-189 putValueString *)
Definition putValueString (data : list Z) (t : kty) (value : str) : res verr (list Z) :=
  match t with
  | KArray elem nelems =>
      match underlying elem with
      | KInt size enc =>
          if negb (size =? 1) || (enc =? encBool) then Err VType
          else if negb (hasPrefix [34] value) || negb (hasPrefix [34] (rev value)) then Err VValue
          else let s := trimQuotes value in
               let s := if nelems <=? u32 (Z.of_nat (length s)) then firstn (Z.to_nat nelems) s else s in
               Ok (copyTo data s)
      | _ => Err VType
      end
  | _ => Err VType
  end.
(** kconfig.go:99-114 PutValue *)
Definition PutValue (bo : byteorder) (data : list Z) (t : kty) (value : str) : res verr (list Z) :=
  let t := underlying t in
  if str_eqb value Y || str_eqb value N || str_eqb value M then putValueTri bo data t value
  else if hasPrefix [34] value then putValueString data t value
  else putValueNumber bo data t value.

(** ** resolveKconfig *)
Record kvar := mkVar { kv_name : str; kv_off : Z; kv_size : Z; kv_type : kty }.
Inductive cerr := CType (n : str) | CVersion | CWrapper | CPut (n : str) (e : verr) | CFind | CParse (e : perr) | CMissing (n : str) | CPanic (n : str).
(** data[off:off+size] and data[off:], and writing to them *)
Definition write (data : list Z) (off : Z) (part : list Z) : list Z := firstn (Z.to_nat off) data ++ part ++ skipn (Z.to_nat off + length part) data.
Definition slice (data : list Z) (off size : Z) : option (list Z) :=
  let hi := u32 (off + size) in if (off <=? hi) && (hi <=? Z.of_nat (length data)) then Some (firstn (Z.to_nat (hi - off)) (skipn (Z.to_nat off) data)) else None.
Definition sliceFrom (data : list Z) (off : Z) : option (list Z) := if off <=? Z.of_nat (length data) then Some (skipn (Z.to_nat off) data) else None.
(** "LINUX_KERNEL_VERSION", "LINUX_HAS_SYSCALL_WRAPPER" *)
Definition KVERSION : str := [76;73;78;85;88;95;75;69;82;78;69;76;95;86;69;82;83;73;79;78].
Definition KWRAPPER : str := [76;73;78;85;88;95;72;65;83;95;83;89;83;67;65;76;76;95;87;82;65;80;80;69;82].

Section resolve.
  (** the running kernel: the byte order, KERNEL_VERSION ([None]: unknown), haveSyscallWrapper ([None]: inconclusive), the
      config file ([None]: not found) with its read error *)
  Variables (bo : byteorder) (version : option Z) (wrapper : option bool) (config : option (str * bool)).

  (** collection.go:730-772 the loop over the variables: the data and the variables for which the file is needed.  Names
      of variables are distinct; a Go map would keep the last one. *)
  Fixpoint specials (data : list Z) (vars : list kvar) : res cerr (list Z * list kvar) :=
    match vars with
    | [] => Ok (data, [])
    | v :: vars' =>
        if str_eqb (kv_name v) KVERSION then
          match kv_type v with
          | KInt 4 _ =>
              match version with
              | None => Err CVersion
              | Some n =>
                  match sliceFrom data (kv_off v) with
                  | Some (_ :: _ :: _ :: _ :: _) => specials (write data (kv_off v) (put bo 4 n)) vars'
                  | _ => Err (CPanic (kv_name v))
                  end
              end
          | _ => Err (CType (kv_name v))
          end
        else if str_eqb (kv_name v) KWRAPPER then
          match kv_type v with
          | KInt size enc =>
              match wrapper with
              | None => Err CWrapper
              | Some b =>
                  match sliceFrom data (kv_off v) with
                  | None => Err (CPanic (kv_name v))
                  | Some part => match PutInteger bo part size enc (if b then 1 else 0) with
                                 | Err e => Err (CPut (kv_name v) e)
                                 | Ok part => specials (write data (kv_off v) part) vars'
                                 end
                  end
              end
          | _ => Err (CType (kv_name v))
          end
        else match specials data vars' with Err e => Err e | Ok (data, cs) => Ok (data, v :: cs) end
    end.
  (** collection.go:792-803: in the order in which Go's map is iterated *)
  Fixpoint putAll (data : list Z) (kernel : cmap) (configs : list kvar) : res cerr (list Z) :=
    match configs with
    | [] => Ok data
    | v :: cs =>
        match cget kernel (kv_name v) with
        | None => Err (CMissing (kv_name v))
        | Some value =>
            match slice data (kv_off v) (kv_size v) with
            | None => Err (CPanic (kv_name v))
            | Some part => match PutValue bo part (kv_type v) value with
                           | Err e => Err (CPut (kv_name v) e)
                           | Ok part => putAll (write data (kv_off v) part) kernel cs
                           end
            end
        end
    end.
  (** [order]: any permutation *)
  Definition resolveKconfig (order : list kvar -> list kvar) (size : Z) (vars : list kvar) : res cerr (list Z) :=
    match specials (repeat 0 (Z.to_nat size)) vars with
    | Err e => Err e
    | Ok (data, []) => Ok data
    | Ok (data, configs) =>
        match config with
        | None => Err CFind
        | Some (contents, rerr) =>
            match Parse contents rerr (Some (map kv_name configs)) with
            | Err e => Err (CParse e)
            | Ok kernel => putAll data kernel (order configs)
            end
        end
    end.
End resolve.
