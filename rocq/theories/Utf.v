(** Utf.v - the text conversions performed by
    [wstring_convert<codecvt_utf8_utf16<char16_t>, char16_t>]
    (output/isyl-output.cxx:15-17, parser/parser.cxx:1975-1990).
    Library behaviour: strict UTF-8 (no overlong form, no surrogate, nothing
    above U+10FFFF) and strict UTF-16; malformed input throws range_error. *)
From Coq Require Import List NArith Bool String Ascii.
From Verif Require Import Base.
Import ListNotations.
Local Open Scope N_scope.

Definition byte (n : N) : ascii := ascii_of_N n.

Definition isHiSur (u : N) : bool := (0xD800 <=? u) && (u <=? 0xDBFF).
Definition isLoSur (u : N) : bool := (0xDC00 <=? u) && (u <=? 0xDFFF).

(** UTF-16 code units to code points. *)
Fixpoint utf16Decode (u : list N) : Res (list N) :=
  match u with
  | [] => Ok []
  | h :: u' =>
      if isHiSur h then
        match u' with
        | l :: u'' =>
            if isLoSur l then
              (r <- utf16Decode u'' ;;
               Ok (0x10000 + (h - 0xD800) * 0x400 + (l - 0xDC00) :: r))%res
            else Throw
        | [] => Throw
        end
      else if isLoSur h then Throw
      else (r <- utf16Decode u' ;; Ok (h :: r))%res
  end.

(** Code points to UTF-16 code units. *)
Definition utf16EncodeCp (c : N) : list N :=
  if c <? 0x10000 then [c]
  else [0xD800 + (c - 0x10000) / 0x400; 0xDC00 + (c - 0x10000) mod 0x400].
Definition utf16Encode (cps : list N) : list N := flat_map utf16EncodeCp cps.

(** Code point to UTF-8 bytes. *)
Definition utf8EncodeCp (c : N) : list ascii :=
  if c <? 0x80 then [byte c]
  else if c <? 0x800 then
    [byte (0xC0 + c / 0x40); byte (0x80 + c mod 0x40)]
  else if c <? 0x10000 then
    [byte (0xE0 + c / 0x1000); byte (0x80 + (c / 0x40) mod 0x40);
     byte (0x80 + c mod 0x40)]
  else
    [byte (0xF0 + c / 0x40000); byte (0x80 + (c / 0x1000) mod 0x40);
     byte (0x80 + (c / 0x40) mod 0x40); byte (0x80 + c mod 0x40)].
Definition utf8Encode (cps : list N) : string :=
  string_of_list_ascii (flat_map utf8EncodeCp cps).

Definition isCont (b : N) : bool := (0x80 <=? b) && (b <=? 0xBF).

(** UTF-8 bytes to code points. *)
Fixpoint utf8DecodeL (l : list ascii) : Res (list N) :=
  match l with
  | [] => Ok []
  | a :: l1 =>
      let b := N_of_ascii a in
      if b <? 0x80 then (r <- utf8DecodeL l1 ;; Ok (b :: r))%res
      else if b <? 0xC2 then Throw
      else
        match l1 with
        | [] => Throw
        | a1 :: l2 =>
            let b1 := N_of_ascii a1 in
            if negb (isCont b1) then Throw
            else if b <? 0xE0 then
              (r <- utf8DecodeL l2 ;;
               Ok ((b - 0xC0) * 0x40 + (b1 - 0x80) :: r))%res
            else
              match l2 with
              | [] => Throw
              | a2 :: l3 =>
                  let b2 := N_of_ascii a2 in
                  if negb (isCont b2) then Throw
                  else if b <? 0xF0 then
                    let c := (b - 0xE0) * 0x1000 + (b1 - 0x80) * 0x40
                             + (b2 - 0x80) in
                    if (c <? 0x800) || ((0xD800 <=? c) && (c <=? 0xDFFF))
                    then Throw
                    else (r <- utf8DecodeL l3 ;; Ok (c :: r))%res
                  else
                    match l3 with
                    | [] => Throw
                    | a3 :: l4 =>
                        let b3 := N_of_ascii a3 in
                        if negb (isCont b3) then Throw
                        else if b <? 0xF5 then
                          let c := (b - 0xF0) * 0x40000 + (b1 - 0x80) * 0x1000
                                   + (b2 - 0x80) * 0x40 + (b3 - 0x80) in
                          if (c <? 0x10000) || (0x10FFFF <? c) then Throw
                          else (r <- utf8DecodeL l4 ;; Ok (c :: r))%res
                        else Throw
                    end
              end
        end
  end.
Definition utf8Decode (s : string) : Res (list N) :=
  utf8DecodeL (list_ascii_of_string s).

(** [wstring_convert::to_bytes] and [from_bytes]. *)
Definition to_bytes (u : list N) : Res string :=
  (cps <- utf16Decode u ;; Ok (utf8Encode cps))%res.
Definition from_bytes (s : string) : Res (list N) :=
  (cps <- utf8Decode s ;; Ok (utf16Encode cps))%res.
