(** Lines and triangles for which the flip is chosen wrongly, and points and triangles for which the tests in two dimensions give the wrong answer. *)
From Coq Require Import ZArith QArith Qabs Bool List.
From Flocq Require Import Core IEEE754.BinarySingleNaN.
From Verif Require Import Geometry_Model Geometry_Spec Geometry_Proofs Float_Model Float_Spec Float_Witness_Proofs FloatFlip_Model FloatFlip_Spec.
Import ListNotations.
Open Scope Q_scope.

Definition lt1 : ftriangle3 := FT3 (F3 (f52 4639973119250812 eq_refl) (f52 5404206920855751 eq_refl) (f52 8568082300490024 eq_refl)) (F3 (f52 7641592030486632 eq_refl) (f52 8131049197900515 eq_refl) (f52 4616767701875722 eq_refl))
  (F3 (f52 6568463462284163 eq_refl) (f52 7143658641189336 eq_refl) (f52 6037302374237705 eq_refl)).
Definition lq1 : fpoint3 := F3 (f52 4950419169862503 eq_refl) (f52 5738578772463113 eq_refl) (f52 6178516587914940 eq_refl).
Definition lq2 : fpoint3 := F3 (f52 5921237106924441 eq_refl) (f52 6505519087252183 eq_refl) (f52 8868828731258036 eq_refl).
Definition lT1 : triangle3 := T3 (P3 (q52 4639973119250812) (q52 5404206920855751) (q52 8568082300490024)) (P3 (q52 7641592030486632) (q52 8131049197900515) (q52 4616767701875722))
  (P3 (q52 6568463462284163) (q52 7143658641189336) (q52 6037302374237705)).
Definition lQ1 : point3 := P3 (q52 4950419169862503) (q52 5738578772463113) (q52 6178516587914940).
Definition lQ2 : point3 := P3 (q52 5921237106924441) (q52 6505519087252183) (q52 8868828731258036).

Lemma line_w_represents : represents_triangle3 lt1 lT1 /\ represents3 lq1 lQ1 /\ represents3 lq2 lQ2 /\ unit_triangle3 lT1 /\ unit_box lQ1 /\ unit_box lQ2.
Proof. repeat split; try reflexivity; discriminate. Qed.
Definition lw1 : Q := 42922146843396786156791426772490826245434783 # 73081727140039805375458519930514687995188616.
Definition lw2 : Q := 41649085867913716865531432143 # 73081727140039805375458519930514687995188616.
Definition lw3 : Q := 15079790148321488784790612622153498109160845 # 36540863570019902687729259965257343997594308.
Lemma line_w_meets : line_meets lT1 lQ1 lQ2 lw1 lw2 lw3.
Proof. exists (36540863570019903282300267579761229508923713 # 73081727140039805375458519930514687995188616). repeat split; reflexivity. Qed.
Lemma line_w_volume : 1 # 1000 <= Qabs (volume_of_line lT1 lQ1 lQ2).
Proof. apply Qle_bool_imp_le. lazy. reflexivity. Qed.
Lemma line_w_wrong : line64 lt1 lq1 lq2 = Value (OutsideOneEdge Two).
Proof. lazy. reflexivity. Qed.

(** The other way around. *)
Definition mt1 : ftriangle3 := FT3 (F3 (f52 6428740522984899 eq_refl) (f52 8333829365893166 eq_refl) (f52 6486803192031022 eq_refl)) (F3 (f52 7721588046599987 eq_refl) (f52 5080539471002353 eq_refl) (f52 5580447416372302 eq_refl))
  (F3 (f52 7208248954895274 eq_refl) (f52 6384703116950017 eq_refl) (f52 5946065975101149 eq_refl)).
Definition mq1 : fpoint3 := F3 (f52 5681026330569685 eq_refl) (f52 6806037850986081 eq_refl) (f52 7218697984374910 eq_refl).
Definition mq2 : fpoint3 := F3 (f52 7976387657620635 eq_refl) (f52 7861424050016503 eq_refl) (f52 5200002903864886 eq_refl).
Definition mT1 : triangle3 := T3 (P3 (q52 6428740522984899) (q52 8333829365893166) (q52 6486803192031022)) (P3 (q52 7721588046599987) (q52 5080539471002353) (q52 5580447416372302))
  (P3 (q52 7208248954895274) (q52 6384703116950017) (q52 5946065975101149)).
Definition mQ1 : point3 := P3 (q52 5681026330569685) (q52 6806037850986081) (q52 7218697984374910).
Definition mQ2 : point3 := P3 (q52 7976387657620635) (q52 7861424050016503) (q52 5200002903864886).
Definition mw1 : Q := 13941706591766011426162700206175690165319158 # 28633666276561886252839814843421659134158517.
Definition mw2 : Q := -664863833736569005754834139001 # 28633666276561886252839814843421659134158517.
Definition mw3 : Q := 14691959684796539690510851206251723802978360 # 28633666276561886252839814843421659134158517.
Lemma line_m_represents : represents_triangle3 mt1 mT1 /\ represents3 mq1 mQ1 /\ represents3 mq2 mQ2 /\ unit_triangle3 mT1 /\ unit_box mQ1 /\ unit_box mQ2.
Proof. repeat split; try reflexivity; discriminate. Qed.
Lemma line_m_meets : line_meets mT1 mQ1 mQ2 mw1 mw2 mw3.
Proof. exists (14316833138280940557714634901321957890488069 # 28633666276561886252839814843421659134158517). repeat split; reflexivity. Qed.
Lemma line_m_volume : 1 # 2000 <= Qabs (volume_of_line mT1 mQ1 mQ2).
Proof. apply Qle_bool_imp_le. lazy. reflexivity. Qed.
Lemma line_m_wrong : line64 mt1 mq1 mq2 = Value Inside.
Proof. lazy. reflexivity. Qed.

(** ** Two dimensions *)
Definition cit : ftriangle2 := FT2 (F2 (f52 8966819226569304 eq_refl) (f52 5723631515186584 eq_refl)) (F2 (f52 4617506099675418 eq_refl) (f52 8321588606664362 eq_refl)) (F2 (f52 5994492983842470 eq_refl) (f52 7322968609385122 eq_refl)).
Definition cip : fpoint2 := F2 (f52 6178025233878730 eq_refl) (f52 7389450213127821 eq_refl).
Definition ciT : triangle2 := T2 (P2 (q52 8966819226569304) (q52 5723631515186584)) (P2 (q52 4617506099675418) (q52 8321588606664362)) (P2 (q52 5994492983842470) (q52 7322968609385122)).
Definition ciP : point2 := P2 (q52 6178025233878730) (q52 7389450213127821).
Lemma ci_represents : represents_triangle2 cit ciT /\ represents2 cip ciP /\ unit_triangle2 ciT /\ unit_square ciP.
Proof. repeat split; try reflexivity; discriminate. Qed.
Lemma ci_mean : mean2 ciT (4041518697411036400289508761 # 11264091505171365333571955238) (4815048538506885612431547773 # 7509394336780910222381303492) (1029270249635 # 22528183010342730667143910476) ciP.
Proof. repeat split; reflexivity. Qed.
Lemma ci_side : strictly_inside2 ciT ciP.
Proof. eexists _, _, _. split; [exact ci_mean |]. repeat split; reflexivity. Qed.
Lemma ci_area : 1 # 50 <= Qabs (area2 ciT).
Proof. apply Qle_bool_imp_le. lazy. reflexivity. Qed.
Lemma ci_wrong : contains2_64 cit cip = Value false.
Proof. lazy. reflexivity. Qed.

Definition cot : ftriangle2 := FT2 (F2 (f52 5892570815391714 eq_refl) (f52 8892576416073276 eq_refl)) (F2 (f52 8232128571961702 eq_refl) (f52 4562434681152536 eq_refl)) (F2 (f52 6777703836791880 eq_refl) (f52 7080176249682002 eq_refl)).
Definition cop : fpoint2 := F2 (f52 6824204959157590 eq_refl) (f52 7168272805158301 eq_refl).
Definition coT : triangle2 := T2 (P2 (q52 5892570815391714) (q52 8892576416073276)) (P2 (q52 8232128571961702) (q52 4562434681152536)) (P2 (q52 6777703836791880) (q52 7080176249682002)).
Definition coP : point2 := P2 (q52 6824204959157590) (q52 7168272805158301).
Lemma co_represents : represents_triangle2 cot coT /\ represents2 cop coP /\ unit_triangle2 coT /\ unit_square coP.
Proof. repeat split; try reflexivity; discriminate. Qed.
Lemma co_mean : mean2 coT (122603809065706516593812029819 # 203731715184045337105170320936) (81127906118338835424194240087 # 203731715184045337105170320936) (-7456417974485 # 101865857592022668552585160468) coP.
Proof. repeat split; reflexivity. Qed.
Lemma co_side : strictly_outside2 coT coP.
Proof. eexists _, _, _. split; [exact co_mean |]. right; right; reflexivity. Qed.
Lemma co_area : 1 # 50 <= Qabs (area2 coT).
Proof. apply Qle_bool_imp_le. lazy. reflexivity. Qed.
Lemma co_wrong : contains2_64 cot cop = Value true.
Proof. lazy. reflexivity. Qed.

Definition cct : ftriangle2 := FT2 (F2 (f52 7874000679838550 eq_refl) (f52 7702927674359790 eq_refl)) (F2 (f52 5961361360547636 eq_refl) (f52 7760140674820663 eq_refl)) (F2 (f52 7471095750559522 eq_refl) (f52 4733022673072660 eq_refl)).
Definition ccp : fpoint2 := F2 (f52 6472648155668980 eq_refl) (f52 4673809829527810 eq_refl).
Definition ccT : triangle2 := T2 (P2 (q52 7874000679838550) (q52 7702927674359790)) (P2 (q52 5961361360547636) (q52 7760140674820663)) (P2 (q52 7471095750559522) (q52 4733022673072660)).
Definition ccP : point2 := P2 (q52 6472648155668980) (q52 4673809829527810).
Lemma cc_represents : represents_triangle2 cct ccT /\ represents2 ccp ccP /\ unit_triangle2 ccT /\ unit_square ccP.
Proof. repeat split; try reflexivity; discriminate. Qed.
Lemma cc_area : 1 # 4 <= area2 ccT.
Proof. apply Qle_bool_imp_le. lazy. reflexivity. Qed.
Lemma cc_inside o : circumscribed2 ccT o -> dist2_2 o ccP < dist2_2 o (t2p1 ccT).
Proof.
  intro H. apply (circumcircle2 ccT o ccP); [| exact H |].
  - apply Qlt_le_trans with (1 # 4); [reflexivity | exact cc_area].
  - lazy. reflexivity.
Qed.
Lemma cc_wrong : in_circle64 cct ccp = Value false.
Proof. lazy. reflexivity. Qed.
