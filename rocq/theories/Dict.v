(** Dict.v - model of dict/dict.{h,inl,cxx}.

    libdatrie is external.  A trie is modelled by its finite map: an
    association list from keys (lists of characters) to stored integers, later
    entries already replaced (see [trieStore]).  A walking state is the string
    walked so far.  A data bank is the byte string that follows the trie in
    the file; offsets index it. *)
From Coq Require Import String List NArith ZArith Bool Ascii.
From Verif Require Import Base ThUni.
Import ListNotations.
Local Open Scope Z_scope.

Definition Trie := list (list N * Z).

(** [a] is an initial segment of [b]. *)
Fixpoint prefixb (a b : list N) : bool :=
  match a, b with
  | [], _ => true
  | x :: a', y :: b' => N.eqb x y && prefixb a' b'
  | _ :: _, [] => false
  end.
Fixpoint keyEqb (a b : list N) : bool :=
  match a, b with
  | [], [] => true
  | x :: a', y :: b' => N.eqb x y && keyEqb a' b'
  | _, _ => false
  end.
Fixpoint trieFind (t : Trie) (k : list N) : option Z :=
  match t with
  | [] => None
  | (k', v) :: t' => if keyEqb k k' then Some v else trieFind t' k
  end.

(** The alphabet map 0x0e01-0x0e5b (dict/gen-lookup-dict.c:131): a character
    outside it can neither be stored nor walked.  (libdatrie maps the NUL
    character to its terminator; NUL never is a token character, so the match
    it would prolong lies beyond the stop position and is skipped.) *)
Definition inAlphabet (c : N) : bool := (N.leb 0x0e01 c && N.leb c 0x0e5b)%bool.

(** [trie_state_walk]: one more character of some stored key. *)
Definition trieWalk (t : Trie) (pre : list N) (c : N) : option (list N) :=
  let pre' := (pre ++ [c])%list in
  if inAlphabet c && existsb (fun kv => prefixb pre' (fst kv)) t
  then Some pre' else None.
(** [trie_state_is_terminal]. *)
Definition trieTerminal (t : Trie) (pre : list N) : bool :=
  match trieFind t pre with Some _ => true | None => false end.
(* TRIE_DATA_ERROR of <datrie/trie.h> *)
Definition TRIE_DATA_ERROR : Z := -1.
(** [trie_state_get_data]. *)
Definition trieGetData (t : Trie) (pre : list N) : Z :=
  match trieFind t pre with Some v => v | None => TRIE_DATA_ERROR end.

(* dict/dict.h:25-26 -- [None] is the null pointer *)
Record Dict := mkDict { mTrie : option Trie; mData : option string }.

(** [std::string (mData + dataIdx)]: bytes up to the first NUL; running past
    the bank (or below it) is undefined. *)
Fixpoint cstr (s : string) : Res string :=
  match s with
  | EmptyString => UB
  | String c s' =>
      if Ascii.eqb c Ascii.zero then Ok EmptyString
      else (r <- cstr s' ;; Ok (String c r))%res
  end.
Fixpoint cstrFrom (s : string) (n : nat) : Res string :=
  match n with
  | O => cstr s
  | S n' => match s with EmptyString => UB | String _ s' => cstrFrom s' n' end
  end.
(* dict/dict.inl:34-38 *)
Definition dictGetData (d : Dict) (idx : Z) : Res string :=
  match mData d with
  | None => UB
  | Some b => if idx <? 0 then UB else cstrFrom b (Z.to_nat idx)
  end.

(** [Match] (dict/dict.h:30-45): the position reached, the walking state and
    the characters of the word that are left. *)
Record Match := mkMatch { mCurPos : nat; mPre : list N; mRest : list N }.

(* dict/dict.cxx:76-86 *)
Definition MatchNew (w : list N) (beginPos : nat) : Match :=
  mkMatch beginPos [] (skipn beginPos w).

(* dict/dict.cxx:95-111.  Returns the next match, if any. *)
Fixpoint findNextIn (t : Trie) (pos : nat) (pre rest : list N) : option Match :=
  match rest with
  | [] => None
  | c :: rest' =>
      match trieWalk t pre c with
      | None => None
      | Some pre' =>
          if trieTerminal t pre' then Some (mkMatch (S pos) pre' rest')
          else findNextIn t (S pos) pre' rest'
      end
  end.
Definition findNext (d : Dict) (m : Match) : option Match :=
  match mTrie d with
  | None => None
  | Some t => findNextIn t (mCurPos m) (mPre m) (mRest m)
  end.

(* dict/dict.cxx:113-120 *)
Definition matchGetData (d : Dict) (m : Match) : Res string :=
  match mTrie d with
  | None => UB   (* never called on a match that did not succeed *)
  | Some t =>
      let v := trieGetData t (mPre m) in
      if v =? TRIE_DATA_ERROR then Ok EmptyString else dictGetData d v
  end.

(** The results of calling [findNext] until it fails. *)
Fixpoint allMatches (fuel : nat) (d : Dict) (m : Match) : list Match :=
  match fuel with
  | O => []
  | S fuel' =>
      match findNext d m with
      | None => []
      | Some m' => m' :: allMatches fuel' d m'
      end
  end.
