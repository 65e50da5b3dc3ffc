(** Data.v - the shipped exception dictionary: the text of data/ex-*.tsv and
    the build rule of data/Makefile.am. *)
From Coq Require Import String List NArith ZArith Bool Ascii.
From Verif Require Import Base Dict GenDict.
Import ListNotations.
Local Open Scope string_scope.

(** Lines of each file, as bytes (UTF-8); the tab is written [tab]. *)
Definition tab : string := String (ascii_of_nat 9) "".
Definition nlS : string := String (ascii_of_nat 10) "".
Definition ent (k d : string) : string := k ++ tab ++ d.

(* data/ex-elong.tsv:1-13 *)
Definition ex_elong : list string :=
 [ent "กระเช้า" "kra_1@3,J_aw3@7";
  ent "เกล้า" "klAw2@5";
  ent "เก้า" "k_Aw2@4";
  ent "เจ้า" "j_Aw2@4";
  ent "เช้า" "J_Aw3@4";
  ent "ใช้" "J_Ay3@3";
  ent "ได้" "d_Ay2@3";
  ent "ใต้" "t_Ay2@3";
  ent "เท้า" "T_Aw3@4";
  ent "น้ำ" "n_Am3@3";
  ent "เปล่า" "plAw1@5";
  ent "ไม้" "m_Ay3@3";
  ent "ร้องไห้" "r_Cg3@4,h_Ay2@7" ].

(* data/ex-karan.tsv:1-5 *)
Definition ex_karan : list string :=
 [ent "กษัตริย์" "k_a_1@1,s_at1@8";
  ent "เชาวน์" "J_aw0@6";
  ent "รามเกียรติ์" "r_Am0@2,m_a_3@3,k_Yn0@11";
  ent "สิริกิติ์" "s_i_1@2,r_i_1@4,k_it1@9";
  ent "สุรเกียรติ์" "s_u_1@2,r_a_3@3,k_Yt1@11" ].

(* data/ex-montho-d.tsv:1-15 *)
Definition ex_montho_d : list string :=
 [ent "ฑังสะ" "d_ag0@3,s_a_1@5";
  ent "ตัณฑุละ" "t_an0@3,d_u_1@5,l_a_3@7";
  ent "บัณฑิต" "b_an0@3,d_it1@6";
  ent "บัณฑิตย์" "b_an0@3,d_it1@8";
  ent "บัณฑุ" "b_an0@3,d_u_1@5";
  ent "บัณเฑาะก์" "b_an0@3,d_c_1@9";
  ent "บัณเฑาะว์" "b_an0@3,d_c_1@9";
  ent "บุณฑริก" "b_un0@3,d_a_1@4,r_ik3@7";
  ent "ปุณฑริก" "p_un0@3,d_a_1@4,r_ik3@7";
  ent "มณฑป" "m_on0@2,d_op1@4";
  ent "มรฑป" "m_C_0@1,r_a_3@2,d_op1@4";
  ent "เลฑฑุ" "l_Et2@3,d_u_1@5";
  ent "เลณฑุ" "l_En0@3,d_u_1@5";
  ent "กาฐมาณฑุ" "k_At1@3,m_An0@6,d_u_1@8";
  ent "มัณฑะเลย์" "m_an0@3,d_a_1@5,l_E_0@9" ].

(* data/ex-misc.tsv:1-11 *)
Definition ex_misc : list string :=
 [ent "ก็" "k_C_2@2";
  ent "คฤห์" "crv_3@4";
  ent "ชคฤห์" "J_a_3@1,crv_3@5";
  ent "เทอญ" "T_Wn0@4";
  ent "เทอม" "T_Wm0@4";
  ent "ภูมิ" "P_Um0@4;P_U_0@2,m_i_3@4";
  ent "ฤกษ์" "r_Wk2@4";
  ent "อย่า" "y_A_1@4";
  ent "อยาก" "y_Ak1@4";
  ent "อย่าง" "y_Ag1@5";
  ent "อยู่" "y_U_1@4" ].

(* data/ex-multi-end.tsv:1-5 *)
Definition ex_multi_end : list string :=
 [ent "เกียรติ" "k_Yt1@7";
  ent "ปรารถนา" "prAt1@4,T_a_1@-407,n_A_4@7";
  ent "พรหม" "Prom0@4";
  ent "พราหมณ์" "PrAm0@7";
  ent "สามารถ" "s_A_4@2,m_At2@6" ].

(* data/ex-short.tsv:1-8 *)
Definition ex_short : list string :=
 [ent "สรเพชญ" "sra_1@2,P_et3@6";
  ent "เพชญ" "P_et3@4";
  ent "เพชญ์" "P_et3@5";
  ent "เพ็ชญ" "P_et3@5";
  ent "เพชฌฆาต" "P_et3@3,J_a_3@4,c_At2@7";
  ent "เพชฉลู" "P_et3@3,J_a_1@-306,l_U_4@6";
  ent "เพชร" "P_et3@4;P_et3@2,J_a_3@4";
  ent "เพชรา" "P_et3@2,J_a_3@3,r_A_0@5" ].

(* data/ex-tone.tsv:1-26 *)
Definition ex_tone : list string :=
 [ent "กำเนิด" "k_am0@2,n_Wt1@6";
  ent "กำราบ" "k_am0@2,r_Ap1@5";
  ent "จักรวรรดิ" "j_ak1@2,kra_1@4,w_at1@9";
  ent "จัตุรัส" "j_at1@2,t_u_1@4,r_at1@7";
  ent "จำรัส" "j_am0@2,r_at1@5";
  ent "ดำรัส" "d_am0@2,r_at1@5";
  ent "ดำริ" "d_am0@2,r_i_1@4";
  ent "ดิเรก" "d_i_1@2,r_Ek1@5";
  ent "ดิลก" "d_i_1@2,l_ok1@4";
  ent "ตำรวจ" "t_am0@2,r_Tt1@5";
  ent "ตำรับ" "t_am0@2,r_ap1@5";
  ent "ติลก" "t_i_1@2,l_ok1@4";
  ent "บัญญัติ" "b_an0@3,y_at1@7";
  ent "บำราบ" "b_am0@2,r_Ap1@5";
  ent "บุรุษ" "b_u_1@2,r_ut1@5";
  ent "ประมาท" "pra_1@3,m_At1@6";
  ent "ประโยค" "pra_1@3,y_Ok1@6";
  ent "ประโยชน์" "pra_1@3,y_Ot1@8";
  ent "ประวัติ" "pra_1@3,w_at1@7";
  ent "ศิริ" "s_i_1@2,r_i_1@4";
  ent "สำรวจ" "s_am4@2,r_Tt1@5";
  ent "สำเร็จ" "s_am4@2,r_et1@6";
  ent "สิเน่หา" "s_i_1@2,n_E_1@5,h_A_4@7";
  ent "สิริ" "s_i_1@2,r_i_1@4";
  ent "อดิเรก" "?_a_1@1,d_i_1@3,r_Ek1@6";
  ent "อำมาตย์" "?_am0@2,m_At1@7" ].

(* data/ex-tr-so.tsv:1-22 *)
Definition ex_tr_so : list string :=
 [ent "กายินทรีย์" "k_A_0@2,y_in0@5,s_I_0@10";
  ent "กาเยนทรีย์" "k_A_0@2,y_En0@5,s_I_0@10";
  ent "ฉะเชิงเทรา" "J_a_1@2,J_Wg0@6,s_aw0@10";
  ent "ทรง" "s_og0@3";
  ent "ทรวง" "s_Tg0@4";
  ent "ทรวด" "s_Tt3@4";
  ent "ทรัพย์" "s_ap3@6";
  ent "ทรัพยากร" "s_ap3@3,P_a_3@4,y_A_0@6,k_Cn0@8";
  ent "ทราบ" "s_Ap2@4";
  ent "ทราม" "s_Am0@4";
  ent "ทราย" "s_Ay0@4";
  ent "ทรุด" "s_ut3@4";
  ent "เทริด" "s_Wt2@5";
  ent "แทรก" "s_Xk2@4";
  ent "โทรม" "s_Om0@4";
  ent "ไทร" "s_ay0@3";
  ent "ไทรอยด์" "T_ay0@2,r_Cy0@7";
  ent "นนทรี" "n_on0@2,s_I_0@5";
  ent "พุทรา" "P_ut3@2,s_A_0@5";
  ent "มัทรี" "m_at3@2,s_I_0@5";
  ent "อินทรี" "?_in0@3,s_I_0@6";
  ent "อินทรีย์" "?_in0@3,s_I_0@8" ].

(* data/Makefile.am:5-14 (EXCEPT_SRC, in order) *)
Definition except_src : list string :=
  (ex_elong ++ ex_karan ++ ex_montho_d ++ ex_misc ++ ex_multi_end ++ ex_short ++ ex_tone ++ ex_tr_so)%list.

(** [LC_ALL=C sort -u]: byte order, equal lines once. *)
Fixpoint bytesLtb (a b : string) : bool :=
  match a, b with
  | EmptyString, EmptyString => false
  | EmptyString, String _ _ => true
  | String _ _, EmptyString => false
  | String x a', String y b' =>
      if N.ltb (N_of_ascii x) (N_of_ascii y) then true
      else if N.ltb (N_of_ascii y) (N_of_ascii x) then false
      else bytesLtb a' b'
  end.
Fixpoint insertU (x : string) (l : list string) : list string :=
  match l with
  | [] => [x]
  | y :: l' =>
      if bytesLtb x y then x :: l
      else if bytesLtb y x then y :: insertU x l'
      else l
  end.
Definition sortU (l : list string) : list string := fold_right insertU [] l.
(* data/Makefile.am:25-26: every line of the result ends with a newline *)
Definition except_tsv : string :=
  String.concat "" (map (fun l => l ++ nlS) (sortU except_src)).
(* data/Makefile.am:28-29 *)
Definition except_dic : Res (option DictFile) := GenDict except_tsv.
(** The dictionary object after opening the generated file. *)
Definition except_dict : Res (Dict * bool) :=
  (f <- except_dic ;;
   match f with
   | Some f => DictOpen (ATrie f)
   | None => DictOpen NoFile
   end)%res.
