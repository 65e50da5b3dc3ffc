(** Checks2.v - the shell tests of the program (thpronun/tests), run through the
    modelled [main] with the shipped exception dictionary built by the modelled
    generator.  libthai's word breaks are not modelled, so no breaks are found.
    These are tests of the transcription, not proofs of properties. *)
From Coq Require Import List NArith ZArith Bool String Ascii.
From Verif Require Import Base ThUni Syl Dict GenDict Parser Data Cli.
From Verif Require Import Prop_Cli.
Import ListNotations.
Local Open Scope string_scope.
Local Open Scope list_scope.

(* data/Makefile.am: except.dic *)
Definition asFile (dic : Res (option DictFile)) : PathContent :=
  match dic with Ok (Some f) => ATrie f | _ => NoFile end.
Definition exceptFiles (f : PathContent) (p : string) : PathContent :=
  if String.eqb p "../../data/except.dic" then f else NoFile.
(** [thpronun args | grep pat] *)
Fixpoint contains (pat s : string) : bool :=
  String.prefix pat s || match s with EmptyString => false | String _ s' => contains pat s' end.
Definition greps (f : PathContent) (args : list string) (pat : string) : bool :=
  let r := run (exceptFiles f) "" args in
  match rRes r with Ok 0%Z => contains pat (rOut r) | _ => false end.

(* thpronun/tests/test-{thyroid,rajgruh,bhumi,petch,chaowana}.sh *)
Example shell_tests : (fun f => forallb (fun r => greps f (fst r) (snd r))
 [(["-d../../data/except.dic"; "-t"; "ไทร"], "ซัย");
  (["-d../../data/except.dic"; "-t"; "ไทรบุรี"], "ซัย-บุ-รี");
  (["-d../../data/except.dic"; "-t"; "ไทรอยด์"], "ทัย-รอย");
  (["-d../../data/except.dic"; "-t"; "รีไทร์"], "รี-ทัย");
  (["-d../../data/except.dic"; "-t"; "ราชคฤห์"], "ราด-ชะ-คฺรึ");
  (["-d../../data/except.dic"; "-t"; "สนานคฤห์"], "สะ-หฺนาน-คฺรึ");
  (["-d../../data/except.dic"; "-t"; "รติคฤห์"], "ระ-ติ-คฺรึ");
  (["-d../../data/except.dic"; "-t"; "คฤหัสถ์"], "คะ-รึ-หัด");
  (["-d../../data/except.dic"; "-t"; "ภูมิใจ"], "พูม-จัย");
  (["-d../../data/except.dic"; "-t"; "ภูมิลำเนา"], "พูม-ลัม-เนา");
  (["-d../../data/except.dic"; "-t"; "ภาคภูมิ"], "พาก-พูม");
  (["-d../../data/except.dic"; "-t"; "ภูมิศาสตร์"], "พู-มิ-สาด");
  (["-d../../data/except.dic"; "-t"; "ภูมิทัศน์"], "พู-มิ-ทัด");
  (["-d../../data/except.dic"; "-t"; "สรเพชญ"], "สฺระ-เพ็ด");
  (["-d../../data/except.dic"; "-t"; "สรรเพชญ"], "สัน-เพ็ด");
  (["-d../../data/except.dic"; "-t"; "สรรเพชญ์"], "สัน-เพ็ด");
  (["-d../../data/except.dic"; "-t"; "สรรเพ็ชญ"], "สัน-เพ็ด");
  (["-d../../data/except.dic"; "-t"; "สรรเพ็ชญ์"], "สัน-เพ็ด");
  (["-d../../data/except.dic"; "-t"; "เพชฌฆาต"], "เพ็ด-ชะ-คาด");
  (["-d../../data/except.dic"; "-t"; "เพชฉลูกรรม"], "เพ็ด-ฉะ-หฺลู-กัม");
  (["-d../../data/except.dic"; "-t"; "เพชร"], "เพ็ด");
  (["-d../../data/except.dic"; "-t"; "เพชรบุรี"], "เพ็ด-บุ-รี");
  (["-d../../data/except.dic"; "-t"; "เพชรบูรณ์"], "เพ็ด-ชะ-บูน");
  (["-d../../data/except.dic"; "-n"; "-t"; "เพชรา"], "เพ็ด-ชะ-รา");
  (["-d../../data/except.dic"; "-t"; "มีเชาวน์"], "มี-เชา");
  (["-d../../data/except.dic"; "-t"; "เวทางค์"], "เว-ทาง");
  (["-d../../data/except.dic"; "-t"; "เสนางค์"], "เส-นาง")])
 (asFile except_dic) = true.
Proof. vm_compute. reflexivity. Qed.
(* thpronun/tests/test-chaowana.sh:19,23 *)
Example shell_tests_not : (fun f => forallb (fun r => negb (greps f (fst r) (snd r)) && greps f (fst r) "")
 [(["-d../../data/except.dic"; "-t"; "เวทางค์"], "วะ-เทา");
  (["-d../../data/except.dic"; "-t"; "เสนางค์"], "สะ-เหฺนา")])
 (asFile except_dic) = true.
Proof. vm_compute. reflexivity. Qed.
(* thpronun/tests/test-kaset.sh *)
Definition kasetLst : string := (ent "เกษตร" "k_a_1@-5,s_Et1@5" ++ nlS ++ ent "สหกรณ์" "s_a_1@1,h_a_1@2,k_Cn0@6" ++ nlS)%string.
Example kaset_test :
  rRes (run (fun p => if String.eqb p "test-kaset.dic" then asFile (GenDict kasetLst) else NoFile) ""
    ["-dtest-kaset.dic"; "-g"; "-t"; "การเกษตรและสหกรณ์การเกษตร"]) = Ok 0%Z.
Proof. vm_compute. reflexivity. Qed.
