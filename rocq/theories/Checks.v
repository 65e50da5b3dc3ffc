(** Checks.v - the expectations of the project's own test programs, computed on
    the model.  These are tests of the transcription, not proofs of properties. *)
From Coq Require Import List NArith ZArith Bool String Ascii.
From Verif Require Import Base ThUni ThCons Syl Utf Lattice Dag PronDag SylOut ThaiOut Output Dict GenDict.
From Verif Require Import Prop_Syl.
Import ListNotations.
Local Open Scope string_scope.
Local Open Scope list_scope.

Definition isOk (x : Res string) (e : string) : bool :=
  match x with Ok s => String.eqb s e | _ => false end.
(** The steps by which the tests build their strings. *)
Inductive Piece := PSyl (d : string) | PStr (d : string) | PBlank | PLit (pos : Z) (t : string).
Definition piece (p : Piece) : SylString :=
  match p with
  | PSyl d => match SylOfDesc d (-1) with Ok s => [s] | _ => [] end
  | PStr d => match SylStringOfDesc d with Ok s => s | _ => [] end
  | PBlank => [Blank]
  | PLit p t => [SylLiteral p (letters t)]
  end.
Definition build (l : list Piece) : SylString := flat_map piece l.
Definition okBoth (f : SylString -> Res string) (l : list Piece) (e : string) : bool := isOk (f (build l)) e.

(* output/tests/test-sylstring.cxx:16-169 *)
Example TestThaiPronun_check : forallb (fun r => match r with (f, l, e) => okBoth f l e end)
 [(delimOutputStr ThaiOutput "-", [PSyl "k_ok1"], "กก");
  (delimOutputStr ThaiOutput "-", [PSyl "k_ok1"; PSyl "t_on2"], "กก-ต้น");
  (delimOutputStr ThaiOutput "-", [PSyl "k_ok1"; PSyl "t_on2"; PSyl "h_U_4"], "กก-ต้น-หู");
  (delimOutputStr ThaiOutput "-", [PSyl "k_ok1"; PSyl "t_on2"; PSyl "h_U_4"; PSyl "kwAg0"], "กก-ต้น-หู-กฺวาง");
  (delimOutputStr ThaiOutput "-", [PSyl "k_ok1"; PSyl "t_on2"; PSyl "h_U_4"; PSyl "kwAg0"; PSyl "l_Yw4"], "กก-ต้น-หู-กฺวาง-เหฺลียว");
  (delimOutputStr ThaiOutput "-", [PSyl "k_ok1"; PSyl "t_on2"; PSyl "h_U_4"; PSyl "kwAg0"; PSyl "l_Yw4"; PSyl "l_c_3"], "กก-ต้น-หู-กฺวาง-เหฺลียว-เลาะ");
  (delimOutputStr ThaiOutput "-", [PSyl "k_ok1"; PSyl "t_on2"; PSyl "h_U_4"; PSyl "kwAg0"; PSyl "l_Yw4"; PSyl "l_c_3"; PSyl "r_Cg3"], "กก-ต้น-หู-กฺวาง-เหฺลียว-เลาะ-ร้อง");
  (delimOutputStr ThaiOutput "-", [PSyl "k_ok1"; PSyl "t_on2"; PSyl "h_U_4"; PSyl "kwAg0"; PSyl "l_Yw4"; PSyl "l_c_3"; PSyl "r_Cg3"; PSyl "p_en0"], "กก-ต้น-หู-กฺวาง-เหฺลียว-เลาะ-ร้อง-เป็น");
  (delimOutputStr ThaiOutput "-", [PSyl "k_ok1"; PSyl "t_on2"; PSyl "h_U_4"; PSyl "kwAg0"; PSyl "l_Yw4"; PSyl "l_c_3"; PSyl "r_Cg3"; PSyl "p_en0"; PSyl "t_A_0"], "กก-ต้น-หู-กฺวาง-เหฺลียว-เลาะ-ร้อง-เป็น-ตา");
  (delimOutputStr ThaiOutput "-", [PSyl "k_ok1"; PSyl "t_on2"; PSyl "h_U_4"; PSyl "kwAg0"; PSyl "l_Yw4"; PSyl "l_c_3"; PSyl "r_Cg3"; PSyl "p_en0"; PSyl "t_A_0"; PSyl "s_xp2"], "กก-ต้น-หู-กฺวาง-เหฺลียว-เลาะ-ร้อง-เป็น-ตา-แซ่บ");
  (delimOutputStr ThaiOutput "-", [PStr "l_a_3,l_an0,l_an1,l_A_3"], "ละ-ลัน-หฺลั่น-ล้า");
  (delimOutputStr ThaiOutput "-", [PStr "cray0,cray2,c_Ay4,c_ay1,k_ay1,crA_0,cram2,m_Ay3,m_ay4,l_aw2"], "คฺรัย-คฺรั่ย-ขาย-ขั่ย-กั่ย-คฺรา-คฺรั่ม-ม้าย-หฺมัย-เล่า");
  (delimOutputStr ThaiOutput "-", [PStr "m_Xw0,l_x_3,d_ek1,l_E_1,l_en2,j_w_1,j_W_0,klZ_0,d_Wn0,klZk1,c_T_2,klig2,r_Tm2,r_Og0,r_Yn0"], "แมว-และ-เด็ก-เหฺล่-เล่น-เจอะ-เจอ-เกฺลือ-เดิน-เกฺลือก-คั่ว-กฺลิ้ง-ร่วม-โรง-เรียน");
  (delimOutputStr ThaiOutput "-", [PStr "m_V_0,m_Vt2,krIt1,k_ug2,P_Un3,n_vg1,s_ig1,m_i_3,m_I_0,g_U_0,l_u_3,r_v_3"], "มือ-มืด-กฺรีด-กุ้ง-พู้น-หฺนึ่ง-สิ่ง-มิ-มี-งู-ลุ-รึ");
  (delimOutputStr ThaiOutput "-", [PStr "k_Wn0,l_Wy0,m_Wy3"], "เกิน-เลย-เม้ย");
  (delimOutputStr ThaiOutput "-", [PStr "k_Wn0,l_Wy0,m_Wy3"; PBlank; PStr "?_Wy4"], "เกิน-เลย-เม้ย เอ๋ย");
  (delimOutputStr ThaiOutput "-", [PStr "k_Wn0,l_Wy0,m_Wy3"; PBlank; PStr "?_Wy4"; PLit 20 "hello"], "เกิน-เลย-เม้ย เอ๋ย-(hello)")]
 = true.
Proof. vm_compute. reflexivity. Qed.

(* output/tests/test-sylstring.cxx:172-357 *)
Example TestRomanPronun_check : forallb (fun r => match r with (f, l, e) => okBoth f l e end)
 [(romanOutputStr false, [PSyl "k_ok1"], "kok");
  (romanOutputStr false, [PSyl "k_ok1"; PSyl "t_on2"], "kokton");
  (romanOutputStr false, [PSyl "k_ok1"; PSyl "t_on2"; PSyl "h_U_4"], "koktonhu");
  (romanOutputStr false, [PSyl "k_ok1"; PSyl "t_on2"; PSyl "h_U_4"; PSyl "kwAg0"], "koktonhukwang");
  (romanOutputStr false, [PSyl "k_ok1"; PSyl "t_on2"; PSyl "h_U_4"; PSyl "kwAg0"; PSyl "l_Yw4"], "koktonhukwangliao");
  (romanOutputStr false, [PSyl "k_ok1"; PSyl "t_on2"; PSyl "h_U_4"; PSyl "kwAg0"; PSyl "l_Yw4"; PSyl "l_c_3"], "koktonhukwangliaolo");
  (romanOutputStr false, [PSyl "k_ok1"; PSyl "t_on2"; PSyl "h_U_4"; PSyl "kwAg0"; PSyl "l_Yw4"; PSyl "l_c_3"; PSyl "r_Cg3"], "koktonhukwangliaolorong");
  (romanOutputStr false, [PSyl "k_ok1"; PSyl "t_on2"; PSyl "h_U_4"; PSyl "kwAg0"; PSyl "l_Yw4"; PSyl "l_c_3"; PSyl "r_Cg3"; PSyl "p_en0"], "koktonhukwangliaolorongpen");
  (romanOutputStr false, [PSyl "k_ok1"; PSyl "t_on2"; PSyl "h_U_4"; PSyl "kwAg0"; PSyl "l_Yw4"; PSyl "l_c_3"; PSyl "r_Cg3"; PSyl "p_en0"; PSyl "t_A_0"], "koktonhukwangliaolorongpenta");
  (romanOutputStr false, [PSyl "k_ok1"; PSyl "t_on2"; PSyl "h_U_4"; PSyl "kwAg0"; PSyl "l_Yw4"; PSyl "l_c_3"; PSyl "r_Cg3"; PSyl "p_en0"; PSyl "t_A_0"; PSyl "s_xp2"], "koktonhukwangliaolorongpentasaep");
  (romanOutputStr false, [PStr "l_a_3,l_an0,l_an1,l_A_3"], "lalanlanla");
  (romanOutputStr false, [PStr "cray0,cray2,c_Ay4,c_ay1,k_ay1,crA_0,cram2,m_Ay3,m_ay4,l_aw2"], "khraikhraikhaikhaikaikhrakhrammaimailao");
  (romanOutputStr true, [PStr "m_Xw0,l_x_3,d_ek1,l_E_1,l_en2,j_w_1,j_W_0,klZ_0,d_Wn0,klZk1,c_T_2,klig2,r_Tm2,r_Og0,r_Yn0"], "Maeolaedeklelenchoechoeklueadoenklueakkhuaklingruamrongrian");
  (romanOutputStr false, [PStr "m_V_0,m_Vt2,krIt1,k_ug2,P_Un3,n_vg1,s_ig1,m_i_3,m_I_0,g_U_0,l_u_3,r_v_3"], "muemuetkritkungphunnuengsingmimi-ngulurue");
  (romanOutputStr false, [PStr "k_Wn0,l_Wy0,m_Wy3"], "koenloeimoei");
  (romanOutputStr false, [PStr "k_Wn0,l_Wy0,m_Wy3"; PBlank; PStr "?_Wy4"], "koenloeimoei oei");
  (romanOutputStr false, [PStr "k_Wn0,l_Wy0,m_Wy3"; PBlank; PStr "?_Wy4"; PLit 20 "hello"], "koenloeimoei oei(hello)");
  (romanOutputStr false, [PStr "s_a_1,g_A_1"], "sa-nga");
  (romanOutputStr false, [PStr "b_ag0,?_Cn0"], "bang-on");
  (romanOutputStr false, [PStr "s_a_1,?_At1"], "sa-at");
  (romanOutputStr false, [PStr "s_am4,?_Ag0"], "sam-ang")]
 = true.
Proof. vm_compute. reflexivity. Qed.

(* output/tests/test-sylstring.cxx:360-512 *)
Example TestPhonetic_check : forallb (fun r => match r with (f, l, e) => okBoth f l e end)
 [(delimOutputStr PhoneticOutput " ", [PSyl "k_ok1"], "kohk1");
  (delimOutputStr PhoneticOutput " ", [PSyl "k_ok1"; PSyl "t_on2"], "kohk1 tohn2");
  (delimOutputStr PhoneticOutput " ", [PSyl "k_ok1"; PSyl "t_on2"; PSyl "h_U_4"], "kohk1 tohn2 huw4");
  (delimOutputStr PhoneticOutput " ", [PSyl "k_ok1"; PSyl "t_on2"; PSyl "h_U_4"; PSyl "kwAg0"], "kohk1 tohn2 huw4 kwaang0");
  (delimOutputStr PhoneticOutput " ", [PSyl "k_ok1"; PSyl "t_on2"; PSyl "h_U_4"; PSyl "kwAg0"; PSyl "l_Yw4"], "kohk1 tohn2 huw4 kwaang0 liaaw4");
  (delimOutputStr PhoneticOutput " ", [PSyl "k_ok1"; PSyl "t_on2"; PSyl "h_U_4"; PSyl "kwAg0"; PSyl "l_Yw4"; PSyl "l_c_3"], "kohk1 tohn2 huw4 kwaang0 liaaw4 laoh3");
  (delimOutputStr PhoneticOutput " ", [PSyl "k_ok1"; PSyl "t_on2"; PSyl "h_U_4"; PSyl "kwAg0"; PSyl "l_Yw4"; PSyl "l_c_3"; PSyl "r_Cg3"], "kohk1 tohn2 huw4 kwaang0 liaaw4 laoh3 raowng3");
  (delimOutputStr PhoneticOutput " ", [PSyl "k_ok1"; PSyl "t_on2"; PSyl "h_U_4"; PSyl "kwAg0"; PSyl "l_Yw4"; PSyl "l_c_3"; PSyl "r_Cg3"; PSyl "p_en0"], "kohk1 tohn2 huw4 kwaang0 liaaw4 laoh3 raowng3 pehn0");
  (delimOutputStr PhoneticOutput " ", [PSyl "k_ok1"; PSyl "t_on2"; PSyl "h_U_4"; PSyl "kwAg0"; PSyl "l_Yw4"; PSyl "l_c_3"; PSyl "r_Cg3"; PSyl "p_en0"; PSyl "t_A_0"], "kohk1 tohn2 huw4 kwaang0 liaaw4 laoh3 raowng3 pehn0 taa0");
  (delimOutputStr PhoneticOutput " ", [PSyl "k_ok1"; PSyl "t_on2"; PSyl "h_U_4"; PSyl "kwAg0"; PSyl "l_Yw4"; PSyl "l_c_3"; PSyl "r_Cg3"; PSyl "p_en0"; PSyl "t_A_0"; PSyl "s_xp2"], "kohk1 tohn2 huw4 kwaang0 liaaw4 laoh3 raowng3 pehn0 taa0 saehp2");
  (delimOutputStr PhoneticOutput " ", [PStr "l_a_3,l_an0,l_an1,l_A_3"], "lah3 lahn0 lahn1 laa3");
  (delimOutputStr PhoneticOutput " ", [PStr "cray0,cray2,c_Ay4,c_ay1,k_ay1,crA_0,cram2,m_Ay3,m_ay4,l_aw2"], "khrahy0 khrahy2 khaay4 khahy1 kahy1 khraa0 khrahm2 maay3 mahy4 lahw2");
  (delimOutputStr PhoneticOutput " ", [PStr "m_Xw0,l_x_3,d_ek1,l_E_1,l_en2,j_w_1,j_W_0,klZ_0,d_Wn0,klZk1,c_T_2,klig2,r_Tm2,r_Og0,r_Yn0"], "maeew0 laeh3 dehk1 ley1 lehn2 joeh1 joee0 klueaa0 doeen0 klueaak1 khuaa2 klihng2 ruaam2 rowng0 riaan0");
  (delimOutputStr PhoneticOutput " ", [PStr "m_V_0,m_Vt2,krIt1,k_ug2,P_Un3,n_vg1,s_ig1,m_i_3,m_I_0,g_U_0,l_u_3,r_v_3"], "muee0 mueet2 kriyt1 kuhng2 phuwn3 nuehng1 sihng1 mih3 miy0 nguw0 luh3 rueh3");
  (delimOutputStr PhoneticOutput " ", [PStr "k_Wn0,l_Wy0,m_Wy3"], "koeen0 loeey0 moeey3");
  (delimOutputStr PhoneticOutput " ", [PStr "k_Wn0,l_Wy0,m_Wy3"; PBlank; PStr "?_Wy4"], "koeen0 loeey0 moeey3 oeey4");
  (delimOutputStr PhoneticOutput " ", [PStr "k_Wn0,l_Wy0,m_Wy3"; PBlank; PStr "?_Wy4"; PLit 20 "hello"], "koeen0 loeey0 moeey3 oeey4 (hello)")]
 = true.
Proof. vm_compute. reflexivity. Qed.

(* output/tests/test-sylstring.cxx:515-668 *)
Example TestRawPronun_check : forallb (fun r => match r with (f, l, e) => okBoth f l e end)
 [(delimOutputStr RawOutput ",", [PSyl "k_ok1@2"], "k_ok1@2");
  (delimOutputStr RawOutput ",", [PSyl "k_ok1@2"; PSyl "t_on2@5"], "k_ok1@2,t_on2@5");
  (delimOutputStr RawOutput ",", [PSyl "k_ok1@2"; PSyl "t_on2@5"; PSyl "h_U_4@7"], "k_ok1@2,t_on2@5,h_U_4@7");
  (delimOutputStr RawOutput ",", [PSyl "k_ok1@2"; PSyl "t_on2@5"; PSyl "h_U_4@7"; PSyl "kwAg0@11"], "k_ok1@2,t_on2@5,h_U_4@7,kwAg0@11");
  (delimOutputStr RawOutput ",", [PSyl "k_ok1@2"; PSyl "t_on2@5"; PSyl "h_U_4@7"; PSyl "kwAg0@11"; PSyl "l_Yw4@17"], "k_ok1@2,t_on2@5,h_U_4@7,kwAg0@11,l_Yw4@17");
  (delimOutputStr RawOutput ",", [PSyl "k_ok1@2"; PSyl "t_on2@5"; PSyl "h_U_4@7"; PSyl "kwAg0@11"; PSyl "l_Yw4@17"; PSyl "l_c_3@21"], "k_ok1@2,t_on2@5,h_U_4@7,kwAg0@11,l_Yw4@17,l_c_3@21");
  (delimOutputStr RawOutput ",", [PSyl "k_ok1@2"; PSyl "t_on2@5"; PSyl "h_U_4@7"; PSyl "kwAg0@11"; PSyl "l_Yw4@17"; PSyl "l_c_3@21"; PSyl "r_Cg3@25"], "k_ok1@2,t_on2@5,h_U_4@7,kwAg0@11,l_Yw4@17,l_c_3@21,r_Cg3@25");
  (delimOutputStr RawOutput ",", [PSyl "k_ok1@2"; PSyl "t_on2@5"; PSyl "h_U_4@7"; PSyl "kwAg0@11"; PSyl "l_Yw4@17"; PSyl "l_c_3@21"; PSyl "r_Cg3@25"; PSyl "p_en0@29"], "k_ok1@2,t_on2@5,h_U_4@7,kwAg0@11,l_Yw4@17,l_c_3@21,r_Cg3@25,p_en0@29");
  (delimOutputStr RawOutput ",", [PSyl "k_ok1@2"; PSyl "t_on2@5"; PSyl "h_U_4@7"; PSyl "kwAg0@11"; PSyl "l_Yw4@17"; PSyl "l_c_3@21"; PSyl "r_Cg3@25"; PSyl "p_en0@29"; PSyl "t_A_0@31"], "k_ok1@2,t_on2@5,h_U_4@7,kwAg0@11,l_Yw4@17,l_c_3@21,r_Cg3@25,p_en0@29,t_A_0@31");
  (delimOutputStr RawOutput ",", [PSyl "k_ok1@2"; PSyl "t_on2@5"; PSyl "h_U_4@7"; PSyl "kwAg0@11"; PSyl "l_Yw4@17"; PSyl "l_c_3@21"; PSyl "r_Cg3@25"; PSyl "p_en0@29"; PSyl "t_A_0@31"; PSyl "s_xp2@35"], "k_ok1@2,t_on2@5,h_U_4@7,kwAg0@11,l_Yw4@17,l_c_3@21,r_Cg3@25,p_en0@29,t_A_0@31,s_xp2@35");
  (delimOutputStr RawOutput ",", [PStr "l_a_3@2,l_an0@5,l_an1@10,l_A_3@13"], "l_a_3@2,l_an0@5,l_an1@10,l_A_3@13");
  (delimOutputStr RawOutput ",", [PStr "cray0@3,cray2@7,c_Ay4@10,c_ay1@13,k_ay1@16,crA_0@19,cram2@23,m_Ay3@26,m_ay4@29,l_aw2@33"], "cray0@3,cray2@7,c_Ay4@10,c_ay1@13,k_ay1@16,crA_0@19,cram2@23,m_Ay3@26,m_ay4@29,l_aw2@33");
  (delimOutputStr RawOutput ",", [PStr "m_Xw0@3,l_x_3@6,d_ek1@10,l_E_1@14,l_en2@18,j_w_1@22,j_W_0@25,klZ_0@30,d_Wn0@34,klZk1@40,c_T_2@44,klig2@49,r_Tm2@53,r_Og0@56,r_Yn0@61"], "m_Xw0@3,l_x_3@6,d_ek1@10,l_E_1@14,l_en2@18,j_w_1@22,j_W_0@25,klZ_0@30,d_Wn0@34,klZk1@40,c_T_2@44,klig2@49,r_Tm2@53,r_Og0@56,r_Yn0@61");
  (delimOutputStr RawOutput ",", [PStr "m_V_0@3,m_Vt2@6,krIt1@10,k_ug2@14,P_Un3@18,n_vg1@23,s_ig1@27,m_i_3@29,m_I_0@31,g_U_0@33,l_u_3@35,r_v_3@37"], "m_V_0@3,m_Vt2@6,krIt1@10,k_ug2@14,P_Un3@18,n_vg1@23,s_ig1@27,m_i_3@29,m_I_0@31,g_U_0@33,l_u_3@35,r_v_3@37");
  (delimOutputStr RawOutput ",", [PStr "k_Wn0@4,l_Wy0@7,m_Wy3@11"], "k_Wn0@4,l_Wy0@7,m_Wy3@11");
  (delimOutputStr RawOutput ",", [PStr "k_Wn0@4,l_Wy0@7,m_Wy3@11"; PBlank; PStr "?_Wy4@15"], "k_Wn0@4,l_Wy0@7,m_Wy3@11 ?_Wy4@15");
  (delimOutputStr RawOutput ",", [PStr "k_Wn0@4,l_Wy0@7,m_Wy3@11"; PBlank; PStr "?_Wy4@15"; PLit 20 "hello"], "k_Wn0@4,l_Wy0@7,m_Wy3@11 ?_Wy4@15,(hello)@20")]
 = true.
Proof. vm_compute. reflexivity. Qed.

(* output/tests/test-sylstring.cxx:671-819 *)
Example TestSoundex_check : forallb (fun r => match r with (f, l, e) => okBoth f l e end)
 [(delimOutputStr SoundexOutput "-", [PSyl "k_ok1@2"], "kok");
  (delimOutputStr SoundexOutput "-", [PSyl "k_ok1@2"; PSyl "t_on2@5"], "kok-ton");
  (delimOutputStr SoundexOutput "-", [PSyl "k_ok1@2"; PSyl "t_on2@5"; PSyl "h_U_4@7"], "kok-ton-hu_");
  (delimOutputStr SoundexOutput "-", [PSyl "k_ok1@2"; PSyl "t_on2@5"; PSyl "h_U_4@7"; PSyl "kwAg0@11"], "kok-ton-hu_-kag");
  (delimOutputStr SoundexOutput "-", [PSyl "k_ok1@2"; PSyl "t_on2@5"; PSyl "h_U_4@7"; PSyl "kwAg0@11"; PSyl "l_Yw4@17"], "kok-ton-hu_-kag-lyw");
  (delimOutputStr SoundexOutput "-", [PSyl "k_ok1@2"; PSyl "t_on2@5"; PSyl "h_U_4@7"; PSyl "kwAg0@11"; PSyl "l_Yw4@17"; PSyl "l_c_3@21"], "kok-ton-hu_-kag-lyw-lc_");
  (delimOutputStr SoundexOutput "-", [PSyl "k_ok1@2"; PSyl "t_on2@5"; PSyl "h_U_4@7"; PSyl "kwAg0@11"; PSyl "l_Yw4@17"; PSyl "l_c_3@21"; PSyl "r_Cg3@25"], "kok-ton-hu_-kag-lyw-lc_-lcg");
  (delimOutputStr SoundexOutput "-", [PSyl "k_ok1@2"; PSyl "t_on2@5"; PSyl "h_U_4@7"; PSyl "kwAg0@11"; PSyl "l_Yw4@17"; PSyl "l_c_3@21"; PSyl "r_Cg3@25"; PSyl "p_en0@29"], "kok-ton-hu_-kag-lyw-lc_-lcg-pen");
  (delimOutputStr SoundexOutput "-", [PSyl "k_ok1@2"; PSyl "t_on2@5"; PSyl "h_U_4@7"; PSyl "kwAg0@11"; PSyl "l_Yw4@17"; PSyl "l_c_3@21"; PSyl "r_Cg3@25"; PSyl "p_en0@29"; PSyl "t_A_0@31"], "kok-ton-hu_-kag-lyw-lc_-lcg-pen-ta_");
  (delimOutputStr SoundexOutput "-", [PSyl "k_ok1@2"; PSyl "t_on2@5"; PSyl "h_U_4@7"; PSyl "kwAg0@11"; PSyl "l_Yw4@17"; PSyl "l_c_3@21"; PSyl "r_Cg3@25"; PSyl "p_en0@29"; PSyl "t_A_0@31"; PSyl "s_xp2@35"], "kok-ton-hu_-kag-lyw-lc_-lcg-pen-ta_-sxp");
  (delimOutputStr SoundexOutput "-", [PStr "l_a_3@2,l_an0@5,l_an1@10,l_A_3@13"], "la_-lan-lan-la_");
  (delimOutputStr SoundexOutput "-", [PStr "cray0@3,cray2@7,c_Ay4@10,c_ay1@13,k_ay1@16,crA_0@19,cram2@23,m_Ay3@26,m_ay4@29,l_aw2@33"], "cay-cay-cay-cay-kay-ca_-cam-may-may-law");
  (delimOutputStr SoundexOutput "-", [PStr "m_Xw0@3,l_x_3@6,d_ek1@10,l_E_1@14,l_en2@18,j_w_1@22,j_W_0@25,klZ_0@30,d_Wn0@34,klZk1@40,c_T_2@44,klig2@49,r_Tm2@53,r_Og0@56,r_Yn0@61"], "mxw-lx_-dek-le_-len-jw_-jw_-kz_-dwn-kzk-ct_-kig-ltm-log-lyn");
  (delimOutputStr SoundexOutput "-", [PStr "m_V_0@3,m_Vt2@6,krIt1@10,k_ug2@14,P_Un3@18,n_vg1@23,s_ig1@27,m_i_3@29,m_I_0@31,g_U_0@33,l_u_3@35,r_v_3@37"], "mv_-mvt-kit-kug-Pun-nvg-sig-mi_-mi_-gu_-lu_-lv_");
  (delimOutputStr SoundexOutput "-", [PStr "k_Wn0@4,l_Wy0@7,m_Wy3@11"], "kwn-lwy-mwy");
  (delimOutputStr SoundexOutput "-", [PStr "k_Wn0@4,l_Wy0@7,m_Wy3@11"; PBlank; PStr "?_Wy4@15"], "kwn-lwy-mwy ?wy");
  (delimOutputStr SoundexOutput "-", [PStr "k_Wn0@4,l_Wy0@7,m_Wy3@11"; PBlank; PStr "?_Wy4@15"; PLit 20 "hello"], "kwn-lwy-mwy ?wy-(hello)")]
 = true.
Proof. vm_compute. reflexivity. Qed.

(* output/tests/test-sylstring.cxx:822-977 *)
Example TestJson_check : forallb (fun r => match r with (f, l, e) => okBoth f l e end)
 [(jsonOutputStr ThaiOutput, [PSyl "k_ok1"], "[""กก""]");
  (jsonOutputStr ThaiOutput, [PSyl "k_ok1"; PSyl "t_on2"], "[""กก"",""ต้น""]");
  (jsonOutputStr ThaiOutput, [PSyl "k_ok1"; PSyl "t_on2"; PSyl "h_U_4"], "[""กก"",""ต้น"",""หู""]");
  (jsonOutputStr ThaiOutput, [PSyl "k_ok1"; PSyl "t_on2"; PSyl "h_U_4"; PSyl "kwAg0"], "[""กก"",""ต้น"",""หู"",""กฺวาง""]");
  (jsonOutputStr ThaiOutput, [PSyl "k_ok1"; PSyl "t_on2"; PSyl "h_U_4"; PSyl "kwAg0"; PSyl "l_Yw4"], "[""กก"",""ต้น"",""หู"",""กฺวาง"",""เหฺลียว""]");
  (jsonOutputStr ThaiOutput, [PSyl "k_ok1"; PSyl "t_on2"; PSyl "h_U_4"; PSyl "kwAg0"; PSyl "l_Yw4"; PSyl "l_c_3"], "[""กก"",""ต้น"",""หู"",""กฺวาง"",""เหฺลียว"",""เลาะ""]");
  (jsonOutputStr ThaiOutput, [PSyl "k_ok1"; PSyl "t_on2"; PSyl "h_U_4"; PSyl "kwAg0"; PSyl "l_Yw4"; PSyl "l_c_3"; PSyl "r_Cg3"], "[""กก"",""ต้น"",""หู"",""กฺวาง"",""เหฺลียว"",""เลาะ"",""ร้อง""]");
  (jsonOutputStr ThaiOutput, [PSyl "k_ok1"; PSyl "t_on2"; PSyl "h_U_4"; PSyl "kwAg0"; PSyl "l_Yw4"; PSyl "l_c_3"; PSyl "r_Cg3"; PSyl "p_en0"], "[""กก"",""ต้น"",""หู"",""กฺวาง"",""เหฺลียว"",""เลาะ"",""ร้อง"",""เป็น""]");
  (jsonOutputStr ThaiOutput, [PSyl "k_ok1"; PSyl "t_on2"; PSyl "h_U_4"; PSyl "kwAg0"; PSyl "l_Yw4"; PSyl "l_c_3"; PSyl "r_Cg3"; PSyl "p_en0"; PSyl "t_A_0"], "[""กก"",""ต้น"",""หู"",""กฺวาง"",""เหฺลียว"",""เลาะ"",""ร้อง"",""เป็น"",""ตา""]");
  (jsonOutputStr ThaiOutput, [PSyl "k_ok1"; PSyl "t_on2"; PSyl "h_U_4"; PSyl "kwAg0"; PSyl "l_Yw4"; PSyl "l_c_3"; PSyl "r_Cg3"; PSyl "p_en0"; PSyl "t_A_0"; PSyl "s_xp2"], "[""กก"",""ต้น"",""หู"",""กฺวาง"",""เหฺลียว"",""เลาะ"",""ร้อง"",""เป็น"",""ตา"",""แซ่บ""]");
  (jsonOutputStr ThaiOutput, [PStr "l_a_3,l_an0,l_an1,l_A_3"], "[""ละ"",""ลัน"",""หฺลั่น"",""ล้า""]");
  (jsonOutputStr ThaiOutput, [PStr "cray0,cray2,c_Ay4,c_ay1,k_ay1,crA_0,cram2,m_Ay3,m_ay4,l_aw2"], "[""คฺรัย"",""คฺรั่ย"",""ขาย"",""ขั่ย"",""กั่ย"",""คฺรา"",""คฺรั่ม"",""ม้าย"",""หฺมัย"",""เล่า""]");
  (jsonOutputStr ThaiOutput, [PStr "m_Xw0,l_x_3,d_ek1,l_E_1,l_en2,j_w_1,j_W_0,klZ_0,d_Wn0,klZk1,c_T_2,klig2,r_Tm2,r_Og0,r_Yn0"], "[""แมว"",""และ"",""เด็ก"",""เหฺล่"",""เล่น"",""เจอะ"",""เจอ"",""เกฺลือ"",""เดิน"",""เกฺลือก"",""คั่ว"",""กฺลิ้ง"",""ร่วม"",""โรง"",""เรียน""]");
  (jsonOutputStr ThaiOutput, [PStr "m_V_0,m_Vt2,krIt1,k_ug2,P_Un3,n_vg1,s_ig1,m_i_3,m_I_0,g_U_0,l_u_3,r_v_3"], "[""มือ"",""มืด"",""กฺรีด"",""กุ้ง"",""พู้น"",""หฺนึ่ง"",""สิ่ง"",""มิ"",""มี"",""งู"",""ลุ"",""รึ""]");
  (jsonOutputStr ThaiOutput, [PStr "k_Wn0,l_Wy0,m_Wy3"], "[""เกิน"",""เลย"",""เม้ย""]");
  (jsonOutputStr ThaiOutput, [PStr "k_Wn0,l_Wy0,m_Wy3"; PBlank; PStr "?_Wy4"], "[""เกิน"",""เลย"",""เม้ย"","" "",""เอ๋ย""]");
  (jsonOutputStr ThaiOutput, [PStr "k_Wn0,l_Wy0,m_Wy3"; PBlank; PStr "?_Wy4"; PLit 20 "hello"], "[""เกิน"",""เลย"",""เม้ย"","" "",""เอ๋ย"",""(hello)""]")]
 = true.
Proof. vm_compute. reflexivity. Qed.

Definition sy (d : string) : Syl := match SylOfDesc d (-1) with Ok s => s | _ => Blank end.
Definition str (d : string) : SylString := build [PStr d].

(* sylstring/tests/test-syl.cxx *)
Example syl_order_check : forallb (fun r => Bool.eqb (fst r) (snd r))
 [(syl_eqb (sy "k_ok1") (sy "k_ok1"), true);
  (negb (syl_eqb (sy "k_ok1") (sy "k_ok1")), false);
  (syl_eqb (sy "k_ok1") (sy "c_ok1"), false);
  (negb (syl_eqb (sy "k_ok1") (sy "c_ok1")), true);
  (syl_eqb (sy "k_ok1") (sy "krok1"), false);
  (negb (syl_eqb (sy "k_ok1") (sy "krok1")), true);
  (syl_eqb (sy "k_ok1") (sy "k_Ok1"), false);
  (negb (syl_eqb (sy "k_ok1") (sy "k_Ok1")), true);
  (syl_eqb (sy "k_ok1") (sy "k_on1"), false);
  (negb (syl_eqb (sy "k_ok1") (sy "k_on1")), true);
  (syl_eqb (sy "k_ok1") (sy "k_ok3"), false);
  (negb (syl_eqb (sy "k_ok1") (sy "k_ok3")), true);
  (syl_ltb (setEndPos (sy "k_ok1") 2) (sy "k_ok1@2"), false);
  (syl_gtb (setEndPos (sy "k_ok1") 2) (sy "k_ok1@2"), false);
  (syl_leb (setEndPos (sy "k_ok1") 2) (sy "k_ok1@2"), true);
  (syl_geb (setEndPos (sy "k_ok1") 2) (sy "k_ok1@2"), true);
  (syl_ltb (setEndPos (sy "k_ok1") 2) (sy "k_ok1@4"), true);
  (syl_gtb (setEndPos (sy "k_ok1") 2) (sy "k_ok1@4"), false);
  (syl_leb (setEndPos (sy "k_ok1") 2) (sy "k_ok1@4"), true);
  (syl_geb (setEndPos (sy "k_ok1") 2) (sy "k_ok1@4"), false);
  (syl_ltb (setEndPos (sy "k_ok1") 2) (sy "c_ok1@2"), true);
  (syl_gtb (setEndPos (sy "k_ok1") 2) (sy "c_ok1@2"), false);
  (syl_leb (setEndPos (sy "k_ok1") 2) (sy "c_ok1@2"), true);
  (syl_geb (setEndPos (sy "k_ok1") 2) (sy "c_ok1@2"), false);
  (syl_ltb (setEndPos (sy "k_ok1") 2) (sy "krok1@2"), true);
  (syl_gtb (setEndPos (sy "k_ok1") 2) (sy "krok1@2"), false);
  (syl_leb (setEndPos (sy "k_ok1") 2) (sy "krok1@2"), true);
  (syl_geb (setEndPos (sy "k_ok1") 2) (sy "krok1@2"), false);
  (syl_ltb (setEndPos (sy "k_ok1") 2) (sy "k_Ok1@2"), false);
  (syl_gtb (setEndPos (sy "k_ok1") 2) (sy "k_Ok1@2"), true);
  (syl_leb (setEndPos (sy "k_ok1") 2) (sy "k_Ok1@2"), false);
  (syl_geb (setEndPos (sy "k_ok1") 2) (sy "k_Ok1@2"), true);
  (syl_ltb (setEndPos (sy "k_ok1") 2) (sy "k_on1@2"), true);
  (syl_gtb (setEndPos (sy "k_ok1") 2) (sy "k_on1@2"), false);
  (syl_leb (setEndPos (sy "k_ok1") 2) (sy "k_on1@2"), true);
  (syl_geb (setEndPos (sy "k_ok1") 2) (sy "k_on1@2"), false);
  (syl_ltb (setEndPos (sy "k_ok1") 2) (sy "k_ok3@2"), true);
  (syl_gtb (setEndPos (sy "k_ok1") 2) (sy "k_ok3@2"), false);
  (syl_leb (setEndPos (sy "k_ok1") 2) (sy "k_ok3@2"), true);
  (syl_geb (setEndPos (sy "k_ok1") 2) (sy "k_ok3@2"), false);
  (syl_eqb (SylLiteral 5 (letters "hello")) (Blank), false);
  (negb (syl_eqb (SylLiteral 5 (letters "hello")) (Blank)), true);
  (syl_ltb (SylLiteral 5 (letters "hello")) (Blank), true);
  (syl_gtb (SylLiteral 5 (letters "hello")) (Blank), false);
  (syl_leb (SylLiteral 5 (letters "hello")) (Blank), true);
  (syl_geb (SylLiteral 5 (letters "hello")) (Blank), false);
  (syl_eqb (SylLiteral 5 (letters "hello")) (setEndPos (sy "k_ok1") 2), false);
  (negb (syl_eqb (SylLiteral 5 (letters "hello")) (setEndPos (sy "k_ok1") 2)), true);
  (syl_ltb (SylLiteral 5 (letters "hello")) (setEndPos (sy "k_ok1") 2), true);
  (syl_gtb (SylLiteral 5 (letters "hello")) (setEndPos (sy "k_ok1") 2), false);
  (syl_leb (SylLiteral 5 (letters "hello")) (setEndPos (sy "k_ok1") 2), true);
  (syl_geb (SylLiteral 5 (letters "hello")) (setEndPos (sy "k_ok1") 2), false);
  (syl_eqb (SylLiteral 5 (letters "hello")) (SylLiteral 5 (letters "hello")), true);
  (negb (syl_eqb (SylLiteral 5 (letters "hello")) (SylLiteral 5 (letters "hello"))), false);
  (syl_ltb (SylLiteral 5 (letters "hello")) (SylLiteral 5 (letters "hello")), false);
  (syl_gtb (SylLiteral 5 (letters "hello")) (SylLiteral 5 (letters "hello")), false);
  (syl_leb (SylLiteral 5 (letters "hello")) (SylLiteral 5 (letters "hello")), true);
  (syl_geb (SylLiteral 5 (letters "hello")) (SylLiteral 5 (letters "hello")), true);
  (syl_eqb (SylLiteral 5 (letters "hello")) (SylLiteral 7 (letters "goodbye")), false);
  (negb (syl_eqb (SylLiteral 5 (letters "hello")) (SylLiteral 7 (letters "goodbye"))), true);
  (syl_ltb (SylLiteral 5 (letters "hello")) (SylLiteral 7 (letters "goodbye")), false);
  (syl_gtb (SylLiteral 5 (letters "hello")) (SylLiteral 7 (letters "goodbye")), true);
  (syl_leb (SylLiteral 5 (letters "hello")) (SylLiteral 7 (letters "goodbye")), false);
  (syl_geb (SylLiteral 5 (letters "hello")) (SylLiteral 7 (letters "goodbye")), true)]
 = true.
Proof. vm_compute. reflexivity. Qed.

(* sylstring/tests/test-sylstring.cxx *)
Example str_order_check : forallb (fun r => Bool.eqb (fst r) (snd r))
 [(str_eqb (str "m_At2@2,trA_0@5") (str "m_At2@2,trA_0@5"), true);
  (negb (str_eqb (str "m_At2@2,trA_0@5") (str "m_At2@2,trA_0@5")), false);
  (str_eqb (str "m_At2@2,trA_0@5") (str "m_A_0@2,trA_0@5"), false);
  (negb (str_eqb (str "m_At2@2,trA_0@5") (str "m_A_0@2,trA_0@5")), true);
  (str_ltb (str "m_At2@2,trA_0@5") (str "m_At2@2,trA_0@5"), false);
  (str_gtb (str "m_At2@2,trA_0@5") (str "m_At2@2,trA_0@5"), false);
  (str_leb (str "m_At2@2,trA_0@5") (str "m_At2@2,trA_0@5"), true);
  (str_geb (str "m_At2@2,trA_0@5") (str "m_At2@2,trA_0@5"), true);
  (str_ltb (str "m_At2@2,trA_0@5") (str "m_A_0@2,trA_0@5"), false);
  (str_gtb (str "m_At2@2,trA_0@5") (str "m_A_0@2,trA_0@5"), true);
  (str_leb (str "m_At2@2,trA_0@5") (str "m_A_0@2,trA_0@5"), false);
  (str_geb (str "m_At2@2,trA_0@5") (str "m_A_0@2,trA_0@5"), true);
  (str_ltb (str "m_At2@2,trA_0@5") (str "m_At2@2,trA_0@5" ++ [sy "s_Tn1@9"]), true);
  (str_gtb (str "m_At2@2,trA_0@5") (str "m_At2@2,trA_0@5" ++ [sy "s_Tn1@9"]), false);
  (str_leb (str "m_At2@2,trA_0@5") (str "m_At2@2,trA_0@5" ++ [sy "s_Tn1@9"]), true);
  (str_geb (str "m_At2@2,trA_0@5") (str "m_At2@2,trA_0@5" ++ [sy "s_Tn1@9"]), false)]
 = true.
Proof. vm_compute. reflexivity. Qed.

Definition okIs {A} (eqb : A -> A -> bool) (r : Res A) (v : A) : bool := match r with Ok x => eqb x v | _ => false end.
(* thortho/tests/test-thcons.cxx, testInitConsClass *)
Example InitConsClass_check : forallb (fun r => forallb (fun c => okIs ic_eqb (InitConsClass c) (fst r)) (snd r))
 [(MID, [0x0e01%N; 0x0e08%N; 0x0e0e%N; 0x0e0f%N; 0x0e14%N; 0x0e15%N; 0x0e1a%N; 0x0e1b%N; 0x0e2d%N]);
  (HIGH, [0x0e02%N; 0x0e03%N; 0x0e09%N; 0x0e10%N; 0x0e16%N; 0x0e1c%N; 0x0e1d%N; 0x0e28%N; 0x0e29%N; 0x0e2a%N; 0x0e2b%N]);
  (LOWS, [0x0e07%N; 0x0e0d%N; 0x0e13%N; 0x0e19%N; 0x0e21%N; 0x0e22%N; 0x0e23%N; 0x0e25%N; 0x0e27%N]);
  (LOWP, [0x0e04%N; 0x0e05%N; 0x0e06%N; 0x0e0a%N; 0x0e0b%N; 0x0e0c%N; 0x0e11%N; 0x0e12%N; 0x0e17%N; 0x0e18%N; 0x0e1e%N; 0x0e1f%N; 0x0e20%N; 0x0e2e%N])]
 = true.
Proof. vm_compute. reflexivity. Qed.

(* thortho/tests/test-thcons.cxx, testInitConsSound *)
Example InitConsSound_check : forallb (fun r => forallb (fun c => okIs ics_eqb (InitConsSound c) (fst r)) (snd r))
 [(KA, [UTH_KO_KAI]);
  (KHA, [UTH_KHO_KHAI; UTH_KHO_KHUAT; UTH_KHO_KHWAI; UTH_KHO_KHON; UTH_KHO_RAKHANG]);
  (NGA, [UTH_NGO_NGU]);
  (JA, [UTH_CHO_CHAN]);
  (CHA, [UTH_CHO_CHING; UTH_CHO_CHANG; UTH_CHO_CHOE]);
  (YA, [UTH_YO_YING; UTH_YO_YAK]);
  (DA, [UTH_DO_CHADA; UTH_DO_DEK]);
  (TA, [UTH_TO_PATAK; UTH_TO_TAO]);
  (THA, [UTH_THO_THAN; UTH_THO_NANGMONTHO; UTH_THO_PHUTHAO; UTH_THO_THUNG; UTH_THO_THAHAN; UTH_THO_THONG]);
  (NA, [UTH_NO_NEN; UTH_NO_NU]);
  (BA, [UTH_BO_BAIMAI]);
  (PA, [UTH_PO_PLA]);
  (PHA, [UTH_PHO_PHUNG; UTH_PHO_PHAN; UTH_PHO_SAMPHAO]);
  (FA, [UTH_FO_FA; UTH_FO_FAN]);
  (MA, [UTH_MO_MA]);
  (RA, [UTH_RO_RUA]);
  (LA, [UTH_LO_LING; UTH_LO_CHULA]);
  (WA, [UTH_WO_WAEN]);
  (SA, [UTH_SO_SO; UTH_SO_SALA; UTH_SO_RUSI; UTH_SO_SUA]);
  (HA, [UTH_HO_HIP; UTH_HO_NOKHUK]);
  (ICS_A, [UTH_O_ANG])]
 = true.
Proof. vm_compute. reflexivity. Qed.

(* thortho/tests/test-thcons.cxx, testEndConsClass *)
Example EndConsClass_check : forallb (fun r => forallb (fun c => okIs ec_eqb (EndConsClass c) (fst r)) (snd r))
 [(EC_NONE, [0x0e2b%N; 0x0e2d%N; 0x0e2e%N]);
  (KOK, [0x0e01%N; 0x0e02%N; 0x0e03%N; 0x0e04%N; 0x0e05%N; 0x0e06%N]);
  (KONG, [0x0e07%N]);
  (KOT, [0x0e08%N; 0x0e09%N; 0x0e0a%N; 0x0e0b%N; 0x0e0c%N; 0x0e0e%N; 0x0e0f%N; 0x0e10%N; 0x0e11%N; 0x0e12%N; 0x0e14%N; 0x0e15%N; 0x0e16%N; 0x0e17%N; 0x0e18%N; 0x0e28%N; 0x0e29%N; 0x0e2a%N]);
  (KON, [0x0e0d%N; 0x0e13%N; 0x0e19%N; 0x0e23%N; 0x0e25%N; 0x0e2c%N]);
  (KOP, [0x0e1a%N; 0x0e1b%N; 0x0e1c%N; 0x0e1d%N; 0x0e1e%N; 0x0e1f%N; 0x0e20%N]);
  (KOM, [0x0e21%N]);
  (KOEY, [0x0e22%N]);
  (KOEW, [0x0e27%N])]
 = true.
Proof. vm_compute. reflexivity. Qed.

Definition frac (l : list string) : PronunFrac := fold_left fracAddStr (map str l) fracEmpty.

(* output/tests/test-lattice.cxx, lattice 1 *)
Example Latt1_check : gjsonOutputLatt ThaiOutput
  [[frac ["m_A_0"; "m_At2"]; frac ["trA_0"; "t_a_1,r_A_0"]];
   [frac ["m_At2,r_A_0"]]]
 = Ok "[[[[""มา""],[""มาด""]],[[""ตะ"",""รา""],[""ตฺรา""]]],[[[""มาด"",""รา""]]]]".
Proof. vm_compute. reflexivity. Qed.

(* output/tests/test-lattice.cxx, lattice 2 *)
Example Latt2_check : gjsonOutputLatt ThaiOutput
  [[frac ["j_at1,r_at3"]];
   [frac ["j_at1"]; frac ["t_u_1"; "t_un0"]; frac ["r_at3"]]]
 = Ok "[[[[""จัด"",""รัด""]]],[[[""จัด""]],[[""ตุ""],[""ตุน""]],[[""รัด""]]]]".
Proof. vm_compute. reflexivity. Qed.

(* output/tests/test-lattice.cxx, lattice 3 *)
Example Latt3_check : gjsonOutputLatt ThaiOutput
  [[frac ["c_a_1,n_om4"; "c_a_1,n_om0"]; frac ["?_op1"]; frac ["krCp1"; "k_Cn0,?_op1"]];
   [frac ["c_a_1,n_om4"; "c_a_1,n_om0"]; frac ["?_a_1"]; frac ["b_ok1,r_Cp2"]];
   [frac ["c_on4,m_Cp2"]; frac ["krCp1"; "k_Cn0,?_op1"]];
   [frac ["c_on4,m_C_0,b_ok1,r_Cp2"]]]
 = Ok "[[[[""ขะ"",""นม""],[""ขะ"",""หฺนม""]],[[""อบ""]],[[""กอน"",""อบ""],[""กฺรอบ""]]],[[[""ขะ"",""นม""],[""ขะ"",""หฺนม""]],[[""อะ""]],[[""บก"",""รอบ""]]],[[[""ขน"",""มอบ""]],[[""กอน"",""อบ""],[""กฺรอบ""]]],[[[""ขน"",""มอ"",""บก"",""รอบ""]]]]".
Proof. vm_compute. reflexivity. Qed.

(* output/tests/test-list.cxx *)
Definition aList : list SylString := map str ["P_E_0@2,l_A_0@4"; "Plaw0@4"; "P_a_3@-4,l_aw0@4"].
Example list_thai_check : delimOutputList ThaiOutput "-" aList = Ok ("เพ-ลา" ++ nl ++ "เพฺลา" ++ nl ++ "พะ-เลา" ++ nl)%string.
Proof. vm_compute. reflexivity. Qed.
Example list_roman_check : romanOutputList false aList = Ok ("phela" ++ nl ++ "phlao" ++ nl ++ "phalao" ++ nl)%string.
Proof. vm_compute. reflexivity. Qed.
Example list_cap_check : romanOutputList true aList = Ok ("Phela" ++ nl ++ "Phlao" ++ nl ++ "Phalao" ++ nl)%string.
Proof. vm_compute. reflexivity. Qed.
Example list_json_check : jsonOutputList ThaiOutput aList = Ok "[[""เพ"",""ลา""],[""เพฺลา""],[""พะ"",""เลา""]]".
Proof. vm_compute. reflexivity. Qed.
Example list_gjson_check : gjsonOutputList ThaiOutput aList = Ok "[[[[""เพ"",""ลา""],[""พะ"",""เลา""],[""เพฺลา""]]]]".
Proof. vm_compute. reflexivity. Qed.

(* lattice/tests/test-dag.cxx *)
Local Open Scope Z_scope.
Definition wordDag : DAG ascii := fold_left (fun d e => match e with (x, y, c) => fst (addEdge Ascii.eqb d x y c) end)
  [(0, 1, "c"%char); (0, 1, "f"%char); (1, 2, "a"%char); (2, 5, "n"%char); (2, 5, "t"%char); (1, 3, "o"%char); (3, 4, "r"%char); (4, 5, "k"%char)] (dagEmpty (T:=ascii)).
Definition wordDag2 : DAG ascii := fold_left (fun d e => match e with (x, y, c) => fst (addEdge Ascii.eqb d x y c) end)
  [(0, 1, "b"%char); (0, 1, "r"%char); (1, 2, "a"%char); (2, 5, "m"%char)] (dagEmpty (T:=ascii)).
Example dag_check : forallb id
 [(isEdgeExist Ascii.eqb wordDag 0 1 "c"%char);
  (isEdgeExist Ascii.eqb wordDag 0 1 "f"%char);
  (isEdgeExist Ascii.eqb wordDag 1 2 "a"%char);
  (isEdgeExist Ascii.eqb wordDag 2 5 "n"%char);
  (isEdgeExist Ascii.eqb wordDag 2 5 "t"%char);
  (isEdgeExist Ascii.eqb wordDag 1 3 "o"%char);
  (isEdgeExist Ascii.eqb wordDag 3 4 "r"%char);
  (isEdgeExist Ascii.eqb wordDag 4 5 "k"%char);
  negb (isEdgeExist Ascii.eqb wordDag 0 1 "a"%char);
  negb (isEdgeExist Ascii.eqb wordDag 1 2 "c"%char);
  negb (isEdgeExist Ascii.eqb wordDag 0 5 "o"%char);
  Nat.eqb (outDegree wordDag 0) 2;
  Nat.eqb (outDegree wordDag 1) 2;
  Nat.eqb (outDegree wordDag 2) 2;
  Nat.eqb (outDegree wordDag 3) 1;
  Nat.eqb (outDegree wordDag 4) 1;
  Nat.eqb (outDegree wordDag 5) 0;
  Nat.eqb (inDegree wordDag 0) 0;
  Nat.eqb (inDegree wordDag 1) 2;
  Nat.eqb (inDegree wordDag 2) 1;
  Nat.eqb (inDegree wordDag 3) 1;
  Nat.eqb (inDegree wordDag 4) 1;
  Nat.eqb (inDegree wordDag 5) 3] = true.
Proof. vm_compute. reflexivity. Qed.

Example dag_Out0_check : map (fun e => (target e, edgeVal e)) (outEdges wordDag 0) = [(1, "c"%char); (1, "f"%char)].
Proof. vm_compute. reflexivity. Qed.
Example dag_Out1_check : map (fun e => (target e, edgeVal e)) (outEdges wordDag 1) = [(2, "a"%char); (3, "o"%char)].
Proof. vm_compute. reflexivity. Qed.
Example dag_Out2_check : map (fun e => (target e, edgeVal e)) (outEdges wordDag 2) = [(5, "n"%char); (5, "t"%char)].
Proof. vm_compute. reflexivity. Qed.
Example dag_Out3_check : map (fun e => (target e, edgeVal e)) (outEdges wordDag 3) = [(4, "r"%char)].
Proof. vm_compute. reflexivity. Qed.
Example dag_Out4_check : map (fun e => (target e, edgeVal e)) (outEdges wordDag 4) = [(5, "k"%char)].
Proof. vm_compute. reflexivity. Qed.
Example dag_Out5_check : map (fun e => (target e, edgeVal e)) (outEdges wordDag 5) = [].
Proof. vm_compute. reflexivity. Qed.
Example dag_In0_check : map (fun e => (target e, edgeVal e)) (inEdges wordDag 0) = [].
Proof. vm_compute. reflexivity. Qed.
Example dag_In1_check : map (fun e => (target e, edgeVal e)) (inEdges wordDag 1) = [(0, "c"%char); (0, "f"%char)].
Proof. vm_compute. reflexivity. Qed.
Example dag_In2_check : map (fun e => (target e, edgeVal e)) (inEdges wordDag 2) = [(1, "a"%char)].
Proof. vm_compute. reflexivity. Qed.
Example dag_In3_check : map (fun e => (target e, edgeVal e)) (inEdges wordDag 3) = [(1, "o"%char)].
Proof. vm_compute. reflexivity. Qed.
Example dag_In4_check : map (fun e => (target e, edgeVal e)) (inEdges wordDag 4) = [(3, "r"%char)].
Proof. vm_compute. reflexivity. Qed.
Example dag_In5_check : map (fun e => (target e, edgeVal e)) (inEdges wordDag 5) = [(2, "n"%char); (2, "t"%char); (4, "k"%char)].
Proof. vm_compute. reflexivity. Qed.
Example dag_remove_check :
  let '(d1, r1) := removeEdge Ascii.eqb wordDag 2 5 "n"%char in
  let '(d2, r2) := removeDirectEdges d1 0 1 in
  (r1, r2, isEdgeExist Ascii.eqb d1 2 5 "n"%char, isEdgeExist Ascii.eqb d1 2 5 "t"%char,
   isEdgeExist Ascii.eqb d2 0 1 "c"%char, isEdgeExist Ascii.eqb d2 0 1 "f"%char)
  = (true, true, false, true, false, false).
Proof. vm_compute. reflexivity. Qed.
Definition unionD := unionDAG Ascii.eqb wordDag wordDag2.
Example dag_union_check : forallb id
 [(isEdgeExist Ascii.eqb unionD 0 1 "b"%char);
  (isEdgeExist Ascii.eqb unionD 0 1 "c"%char);
  (isEdgeExist Ascii.eqb unionD 0 1 "f"%char);
  (isEdgeExist Ascii.eqb unionD 0 1 "r"%char);
  (isEdgeExist Ascii.eqb unionD 1 2 "a"%char);
  (isEdgeExist Ascii.eqb unionD 2 5 "m"%char);
  (isEdgeExist Ascii.eqb unionD 2 5 "n"%char);
  (isEdgeExist Ascii.eqb unionD 2 5 "t"%char);
  (isEdgeExist Ascii.eqb unionD 1 3 "o"%char);
  (isEdgeExist Ascii.eqb unionD 3 4 "r"%char);
  (isEdgeExist Ascii.eqb unionD 4 5 "k"%char);
  negb (isEdgeExist Ascii.eqb unionD 0 1 "a"%char);
  negb (isEdgeExist Ascii.eqb unionD 1 2 "c"%char);
  negb (isEdgeExist Ascii.eqb unionD 0 5 "o"%char)] = true.
Proof. vm_compute. reflexivity. Qed.

(* lattice/tests/test-prondag.cxx; the first two groups on fraction graphs are
   under "#if 0" there because mergeFractions runs at once *)
Definition khanom : list SylString := map str
 ["c_a_1@-3,n_om4@3,?_op1@5,krCp1@9";
  "c_a_1@1,n_om0@3,?_op1@5,krCp1@9";
  "c_a_1@-3,n_om4@3,?_op1@5,k_Cn0@7,?_op1@9";
  "c_a_1@1,n_om0@3,?_op1@5,k_Cn0@7,?_op1@9";
  "c_a_1@-3,n_om4@3,?_a_1@4,b_ok1@6,r_Cp2@9";
  "c_a_1@1,n_om0@3,?_a_1@4,b_ok1@6,r_Cp2@9";
  "c_on4@2,m_Cp2@5,krCp1@9";
  "c_on4@2,m_Cp2@5,k_Cn0@7,?_op1@9";
  "c_on4@2,m_C_0@4,b_ok1@6,r_Cp2@9"].
Definition khanomDag : PronunDAG := pronDAGOfList khanom.
Example prondag_check : forallb id
 [(isEdgeExist syl_eqb khanomDag (0) (-3) (sy "c_a_1"));
  (isEdgeExist syl_eqb khanomDag (0) (1) (sy "c_a_1"));
  (isEdgeExist syl_eqb khanomDag (0) (2) (sy "c_on4"));
  (isEdgeExist syl_eqb khanomDag (-3) (3) (sy "n_om4"));
  (isEdgeExist syl_eqb khanomDag (1) (3) (sy "n_om0"));
  (isEdgeExist syl_eqb khanomDag (2) (5) (sy "m_Cp2"));
  (isEdgeExist syl_eqb khanomDag (2) (4) (sy "m_C_0"));
  (isEdgeExist syl_eqb khanomDag (3) (5) (sy "?_op1"));
  (isEdgeExist syl_eqb khanomDag (3) (4) (sy "?_a_1"));
  (isEdgeExist syl_eqb khanomDag (4) (6) (sy "b_ok1"));
  (isEdgeExist syl_eqb khanomDag (5) (9) (sy "krCp1"));
  (isEdgeExist syl_eqb khanomDag (5) (7) (sy "k_Cn0"));
  (isEdgeExist syl_eqb khanomDag (7) (9) (sy "?_op1"));
  (isEdgeExist syl_eqb khanomDag (6) (9) (sy "r_Cp2"));
  negb (isEdgeExist syl_eqb khanomDag (0) (-3) (sy "n_om4"));
  negb (isEdgeExist syl_eqb khanomDag (1) (2) (sy "?_op1"));
  negb (isEdgeExist syl_eqb khanomDag (0) (5) (sy "m_Cp2"))] = true.
Proof. vm_compute. reflexivity. Qed.

Definition mkF (p : Z) (l : list (list string)) : PronunFrac :=
  fold_left (fun f s => fracAdd f (fracOf p (map sy s))) l fracEmpty.
Example fracdag_check : match Ok (fracDAGInit khanomDag) with Ok d => forallb id
 [(isEdgeExist frac_eqb d (0) (-3) (mkF (-3) [["c_a_1"]]));
  (isEdgeExist frac_eqb d (0) (1) (mkF (1) [["c_a_1"]]));
  (isEdgeExist frac_eqb d (0) (2) (mkF (2) [["c_on4"]]));
  (isEdgeExist frac_eqb d (-3) (3) (mkF (3) [["n_om4"]]));
  (isEdgeExist frac_eqb d (1) (3) (mkF (3) [["n_om0"]]));
  (isEdgeExist frac_eqb d (2) (5) (mkF (5) [["m_Cp2"]]));
  (isEdgeExist frac_eqb d (2) (4) (mkF (4) [["m_C_0"]]));
  (isEdgeExist frac_eqb d (3) (5) (mkF (5) [["?_op1"]]));
  (isEdgeExist frac_eqb d (3) (4) (mkF (4) [["?_a_1"]]));
  (isEdgeExist frac_eqb d (4) (6) (mkF (6) [["b_ok1"]]));
  (isEdgeExist frac_eqb d (5) (9) (mkF (9) [["krCp1"]]));
  (isEdgeExist frac_eqb d (5) (7) (mkF (7) [["k_Cn0"]]));
  (isEdgeExist frac_eqb d (7) (9) (mkF (9) [["?_op1"]]));
  (isEdgeExist frac_eqb d (6) (9) (mkF (9) [["r_Cp2"]]));
  negb (isEdgeExist frac_eqb d (0) (-3) (mkF (-3) [["n_om4"]]));
  negb (isEdgeExist frac_eqb d (1) (2) (mkF (2) [["?_op1"]]));
  negb (isEdgeExist frac_eqb d (0) (5) (mkF (5) [["m_Cp2"]]))] | _ => false end = true.
Proof. vm_compute. reflexivity. Qed.

Example fracdag_single_check : match mergeSinglesLoop 1000 (fracDAGInit khanomDag) 0 with Ok d => forallb id
 [(isEdgeExist frac_eqb d (0) (3) (mkF (3) [["c_a_1"; "n_om4"]]));
  (isEdgeExist frac_eqb d (0) (3) (mkF (3) [["c_a_1"; "n_om0"]]));
  (isEdgeExist frac_eqb d (0) (2) (mkF (2) [["c_on4"]]));
  (isEdgeExist frac_eqb d (2) (5) (mkF (5) [["m_Cp2"]]));
  (isEdgeExist frac_eqb d (2) (4) (mkF (4) [["m_C_0"]]));
  (isEdgeExist frac_eqb d (3) (5) (mkF (5) [["?_op1"]]));
  (isEdgeExist frac_eqb d (3) (4) (mkF (4) [["?_a_1"]]));
  (isEdgeExist frac_eqb d (4) (9) (mkF (9) [["b_ok1"; "r_Cp2"]]));
  (isEdgeExist frac_eqb d (5) (9) (mkF (9) [["krCp1"]]));
  (isEdgeExist frac_eqb d (5) (9) (mkF (9) [["k_Cn0"; "?_op1"]]));
  negb (isEdgeExist frac_eqb d (0) (-3) (mkF (-3) [["c_a_1"]]));
  negb (isEdgeExist frac_eqb d (0) (1) (mkF (1) [["c_a_1"]]));
  negb (isEdgeExist frac_eqb d (-3) (3) (mkF (3) [["n_om4"]]));
  negb (isEdgeExist frac_eqb d (1) (3) (mkF (3) [["n_om0"]]));
  negb (isEdgeExist frac_eqb d (5) (7) (mkF (7) [["k_Cn0"]]));
  negb (isEdgeExist frac_eqb d (7) (9) (mkF (9) [["?_op1"]]));
  negb (isEdgeExist frac_eqb d (4) (6) (mkF (6) [["b_ok1"]]));
  negb (isEdgeExist frac_eqb d (6) (9) (mkF (9) [["r_Cp2"]]));
  negb (isEdgeExist frac_eqb d (0) (-3) (mkF (-3) [["n_om4"]]));
  negb (isEdgeExist frac_eqb d (1) (2) (mkF (2) [["?_op1"]]));
  negb (isEdgeExist frac_eqb d (0) (5) (mkF (5) [["m_Cp2"]]))] | _ => false end = true.
Proof. vm_compute. reflexivity. Qed.

Example fracdag_parallel_check : match fracDAG khanomDag with Ok d => forallb id
 [(isEdgeExist frac_eqb d (0) (2) (mkF (2) [["c_on4"]]));
  (isEdgeExist frac_eqb d (2) (5) (mkF (5) [["m_Cp2"]]));
  (isEdgeExist frac_eqb d (2) (4) (mkF (4) [["m_C_0"]]));
  (isEdgeExist frac_eqb d (3) (5) (mkF (5) [["?_op1"]]));
  (isEdgeExist frac_eqb d (3) (4) (mkF (4) [["?_a_1"]]));
  (isEdgeExist frac_eqb d (4) (9) (mkF (9) [["b_ok1"; "r_Cp2"]]));
  (isEdgeExist frac_eqb d (5) (9) (mkF (9) [["k_Cn0"; "?_op1"]; ["krCp1"]]));
  negb (isEdgeExist frac_eqb d (0) (3) (mkF (3) [["c_a_1"; "n_om4"]]));
  negb (isEdgeExist frac_eqb d (0) (3) (mkF (3) [["c_a_1"; "n_om0"]]));
  negb (isEdgeExist frac_eqb d (5) (9) (mkF (9) [["krCp1"]]));
  negb (isEdgeExist frac_eqb d (5) (9) (mkF (9) [["k_Cn0"; "?_op1"]]));
  negb (isEdgeExist frac_eqb d (0) (-3) (mkF (-3) [["c_a_1"]]));
  negb (isEdgeExist frac_eqb d (0) (1) (mkF (1) [["c_a_1"]]));
  negb (isEdgeExist frac_eqb d (-3) (3) (mkF (3) [["n_om4"]]));
  negb (isEdgeExist frac_eqb d (1) (3) (mkF (3) [["n_om0"]]));
  negb (isEdgeExist frac_eqb d (5) (7) (mkF (7) [["k_Cn0"]]));
  negb (isEdgeExist frac_eqb d (7) (9) (mkF (9) [["?_op1"]]));
  negb (isEdgeExist frac_eqb d (4) (6) (mkF (6) [["b_ok1"]]));
  negb (isEdgeExist frac_eqb d (6) (9) (mkF (9) [["r_Cp2"]]));
  negb (isEdgeExist frac_eqb d (0) (-3) (mkF (-3) [["n_om4"]]));
  negb (isEdgeExist frac_eqb d (1) (2) (mkF (2) [["?_op1"]]));
  negb (isEdgeExist frac_eqb d (0) (5) (mkF (5) [["m_Cp2"]]))] | _ => false end = true.
Proof. vm_compute. reflexivity. Qed.

(* dict/tests/test-dict.cxx, test.lst *)
Definition tabS : string := String (ascii_of_nat 9) "".
Definition testLst : string := String.concat "" [("ปรารถนา" ++ tabS ++ "prAt1@-4,t_a_1@-407,n_A_4@7" ++ nl)%string;
  ("สาม" ++ tabS ++ "s_Am4@3" ++ nl)%string;
  ("สามารถ" ++ tabS ++ "s_A_4@2,m_At2@6" ++ nl)%string].
Definition testDict : Dict := match GenDict testLst with
  | Ok (Some f) => match DictOpen (ATrie f) with Ok (d, _) => d | _ => mkDict None None end | _ => mkDict None None end.
Definition found (p : nat) : list (nat * Res string) :=
  map (fun m => (mCurPos m, matchGetData testDict m)) (allMatches 20 testDict (MatchNew (letters "สามารถปรารถนาได้") p)).
Example dict_check : found 0 = [(3%nat, Ok "s_Am4@3"); (6%nat, Ok "s_A_4@2,m_At2@6")]
  /\ found 6 = [(13%nat, Ok "prAt1@-4,t_a_1@-407,n_A_4@7")].
Proof. vm_compute. split; reflexivity. Qed.

