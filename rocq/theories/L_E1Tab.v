(** Coefficients of E1_approximation as integers, in units of 10^-29. *)
From Coq Require Import ZArith Reals Lra List.
From Coquelicot Require Import Coquelicot.
From Verif Require Import Outcome Num NumFun M_Special L_Poly L_Special.
Import ListNotations.
Local Open Scope R_scope.

Definition unit29 : Z := 100000000000000000000000000000%Z.
Definition za_p : list Z := [-14815102102575750838086000000000000; 15026059476436982420737000000000000; 8990497200745725655325100000000000; 1592417598063730363988400000000000; 215006729080929181232090000000000; 11669552669734461083368000000000; 501967851854398437910200000000]%Z.
Definition za_q : list Z := [25666493484897117319268000000000000; 18434070063353677359298000000000000; 5244052917205635542988300000000000; 812580351747687357598660000000000; 75043163907103936624165000000000; 4020546564002770606143300000000; 100000000000000000000000000000]%Z.
Definition zb_p : list Z := [1737331760720576030932; 99999896423476130684370000000; 1487967702840464066613000000000; 7633628873405946890896000000000; 16981067637642383827050000000000; 17006329783115161293280000000000; 7246689782858597021199000000000; 1107326627786317438090000000000; 38285731210224771691080000000]%Z.
Definition zb_q : list Z := [100000000000000000000000000000; 1587964570758947927903000000000; 9021658450529372642314000000000; 23425735047176251530530000000000; 29531363356779085174230000000000; 17757281867172897996770000000000; 4662179610356861756812000000000; 434483633550928208336000000000; 8258160008564488034698000000]%Z.
Definition zc_p : list Z := [-99999999999999999087819000000; -5219963258852257248103900000000; -106117772635503317668710000000000; -1081685239909591562249800000000000; -5934684153883711917235600000000000; -17503273087497081314708000000000000; -26181454937205639647381000000000000; -17283375773777593926828000000000000; -3584619874399690430869500000000000; -13276881505637444622987000000000]%Z.
Definition zc_q : list Z := [100000000000000000000000000000; 5419963258852255941492400000000; 116357699153208480354590000000000; 1284280858662729736599800000000000; 7923178764527904369871800000000000; 27858134710520842139357000000000000; 54616842050691155735758000000000000; 55903756210022864003380000000000000; 55989762083608489777411000000000000; 3914785624555634562707800000000000]%Z.
(** With entries 3 and 7 as published: 7.633628843705946890896e1, 1.107326627786831743809e1. *)
Definition zb_p_ok : list Z := [1737331760720576030932; 99999896423476130684370000000; 1487967702840464066613000000000; 7633628843705946890896000000000; 16981067637642383827050000000000; 17006329783115161293280000000000; 7246689782858597021199000000000; 1107326627786831743809000000000; 38285731210224771691080000000]%Z.
(** With entries 4 and 8 as published: 7.9231787945279043698718e4, 2.5989762083608489777411e5. *)
Definition zc_q_ok : list Z := [100000000000000000000000000000; 5419963258852255941492400000000; 116357699153208480354590000000000; 1284280858662729736599800000000000; 7923178794527904369871800000000000; 27858134710520842139357000000000000; 54616842050691155735758000000000000; 55903756210022864003380000000000000; 25989762083608489777411000000000000; 3914785624555634562707800000000000]%Z.

Definition scaled (l : list Z) : list R := map (fun z => IZR z / IZR unit29) l.
Lemma pev_scaled l u : pev (scaled l) u = zev l u / IZR unit29.
Proof.
  unfold scaled. induction l as [|h l IH].
  - cbn. lra.
  - cbn [map pev zev]. rewrite IH. unfold Rdiv. ring.
Qed.
Lemma unit29_nz : IZR unit29 <> 0.
Proof. apply not_0_IZR. discriminate. Qed.
Ltac tabs := cbv [scaled map unit29]; un; repeat (apply f_equal2; [lra|]); reflexivity.
Lemma za_p_eq : e1a_p (T := R) = scaled za_p.
Proof. unfold e1a_p, za_p. tabs. Qed.
Lemma za_q_eq : e1a_q (T := R) = scaled za_q.
Proof. unfold e1a_q, za_q. tabs. Qed.
Lemma zb_p_eq : e1b_p (T := R) = scaled zb_p.
Proof. unfold e1b_p, zb_p. tabs. Qed.
Lemma zb_q_eq : e1b_q (T := R) = scaled zb_q.
Proof. unfold e1b_q, zb_q. tabs. Qed.
Lemma zc_p_eq : e1c_p (T := R) = scaled zc_p.
Proof. unfold e1c_p, zc_p. tabs. Qed.
Lemma zc_q_eq : e1c_q (T := R) = scaled zc_q.
Proof. unfold e1c_q, zc_q. tabs. Qed.
