(** Coefficients of Ei_approximation as integers, in units of 10^-25. *)
From Coq Require Import ZArith Reals Lra List.
From Coquelicot Require Import Coquelicot.
From Verif Require Import Outcome Num NumFun M_Special S_Special L_Poly L_Special L_Cf.
Import ListNotations.
Local Open Scope R_scope.

Definition unit25 : Z := 10000000000000000000000000%Z.
Definition z6_p : list Z := [-4165808133360499424187900000000000000; 121776981361995946775800000000000000; -253018239845990193488580000000000000; 3198435423523773851104800000000000; -3537780969443113348480000000000000; -3139866086424726586205000000000; -14299841572091610380064000000000; -142870725001970057773760000000; -12831220659262000678155000000; -129637026024748300285900000]%Z.
Definition z6_q : list Z := [-1793474983715100972337100000000000000; 989009342624817494398860000000000000; -289862726965544953426580000000000000; 54229617984472955011862000000000000; -7010856877421595406537600000000000; 646988309565764285876530000000000; -42648434812177161405483000000000; 1941846944075988036141500000000; -55648470543369082846819000000; 768867187500000000000000000]%Z.
Definition z12_a : list Z := [9981193787537396413219000; 95651345919786307742170000; -39888507303905410579120000; 112001102422729745152300000; -301576186384059335916500000; 194560377953928181043900000; 105297639245901515542200000; -242110695698065351155000000; -23783728828157252441240000; -26459777930771472378060000]%Z.
Definition z12_b : list Z := [12498848227124478914400000; -2369210235636181001661000000; 4731097187816050252967000000; 285239754811924870014700000; 7608194509086645763123000000; -87914010548754389250290000; 3697412299772985940785000000; 46441859325832869426500000; 1598517957704779356479]%Z.
Definition z24_a : list Z := [9999933106160568739091000; -18450862323912786745240000; 265257581845279981985500000; 249548773040205944062600000; -332361257934396228433300000; -9134835699998742552432000; -210574079954804045039400000; -100064191398928482996100000; -186009212172643758225300000; -16477211724634631400420000]%Z.
Definition z24_b : list Z := [10015338520453426978180000; -109355619539109124392400000; 1991004470817742470726000000; 11928324239686010069850000000; 442941317833792840116100000; 2538819315630708031713000000; 599493232566740735525500000; 640380040535241555132400000; 979240359921729029684000000]%Z.
Definition zL_a : list Z := [10000000000000048550300000; -30000000032098126575300000; -50000664041313100247500000; -70681097789502935883600000; -152856623636929636839000000; -76314770162025363085500000; -279798528624305389340000000; -181949664929868906455000000; -2231276707776324095500000000; 1753388012654659723900000000]%Z.
Definition zL_b : list Z := [19999999999904810416700000; -29999989404032495961200000; -79924359577633974106500000; -120187763547154743238000000; 704831847180424675988000000; 1171792205020864552870000000; 1377903902357479987930000000; 39727710910041451836500000; 397845977167414720840000000000]%Z.
(** With the last entry -2.645677793077147237806. *)
Definition z12_a_ok : list Z := [9981193787537396413219000; 95651345919786307742170000; -39888507303905410579120000; 112001102422729745152300000; -301576186384059335916500000; 194560377953928181043900000; 105297639245901515542200000; -242110695698065351155000000; -23783728828157252441240000; -26456777930771472378060000]%Z.

Lemma unit25_nz : IZR unit25 <> 0.
Proof. apply not_0_IZR. discriminate. Qed.
Ltac tabu := cbv [units map unit25]; un; repeat (apply f_equal2; [lra|]); reflexivity.
Lemma z6_p_eq : ei6_p (T := R) = units unit25 z6_p.
Proof. unfold ei6_p, z6_p. tabu. Qed.
Lemma z6_p_peq : ei6_p (NT := PNum) = map Some (units unit25 z6_p).
Proof. rewrite <- z6_p_eq. unfold ei6_p. plist. Qed.
Lemma z6_q_eq : ei6_q (T := R) = units unit25 z6_q.
Proof. unfold ei6_q, z6_q. tabu. Qed.
Lemma z6_q_peq : ei6_q (NT := PNum) = map Some (units unit25 z6_q).
Proof. rewrite <- z6_q_eq. unfold ei6_q. plist. Qed.
Lemma z12_a_eq : ei12_alpha (T := R) = units unit25 z12_a.
Proof. unfold ei12_alpha, z12_a. tabu. Qed.
Lemma z12_a_peq : ei12_alpha (NT := PNum) = map Some (units unit25 z12_a).
Proof. rewrite <- z12_a_eq. unfold ei12_alpha. plist. Qed.
Lemma z12_b_eq : ei12_beta (T := R) = units unit25 z12_b.
Proof. unfold ei12_beta, z12_b. tabu. Qed.
Lemma z12_b_peq : ei12_beta (NT := PNum) = map Some (units unit25 z12_b).
Proof. rewrite <- z12_b_eq. unfold ei12_beta. plist. Qed.
Lemma z24_a_eq : ei24_alpha (T := R) = units unit25 z24_a.
Proof. unfold ei24_alpha, z24_a. tabu. Qed.
Lemma z24_a_peq : ei24_alpha (NT := PNum) = map Some (units unit25 z24_a).
Proof. rewrite <- z24_a_eq. unfold ei24_alpha. plist. Qed.
Lemma z24_b_eq : ei24_beta (T := R) = units unit25 z24_b.
Proof. unfold ei24_beta, z24_b. tabu. Qed.
Lemma z24_b_peq : ei24_beta (NT := PNum) = map Some (units unit25 z24_b).
Proof. rewrite <- z24_b_eq. unfold ei24_beta. plist. Qed.
Lemma zL_a_eq : eiL_alpha (T := R) = units unit25 zL_a.
Proof. unfold eiL_alpha, zL_a. tabu. Qed.
Lemma zL_a_peq : eiL_alpha (NT := PNum) = map Some (units unit25 zL_a).
Proof. rewrite <- zL_a_eq. unfold eiL_alpha. plist. Qed.
Lemma zL_b_eq : eiL_beta (T := R) = units unit25 zL_b.
Proof. unfold eiL_beta, zL_b. tabu. Qed.
Lemma zL_b_peq : eiL_beta (NT := PNum) = map Some (units unit25 zL_b).
Proof. rewrite <- zL_b_eq. unfold eiL_beta. plist. Qed.
Lemma expei_alpha_eq : expei_alpha (T := R) = units unit25 zL_a.
Proof. unfold expei_alpha, zL_a. tabu. Qed.
Lemma expei_alpha_peq : expei_alpha (NT := PNum) = map Some (units unit25 zL_a).
Proof. rewrite <- expei_alpha_eq. unfold expei_alpha. plist. Qed.
Lemma expei_beta_eq : expei_beta (T := R) = units unit25 zL_b.
Proof. unfold expei_beta, zL_b. tabu. Qed.
Lemma expei_beta_peq : expei_beta (NT := PNum) = map Some (units unit25 zL_b).
Proof. rewrite <- expei_beta_eq. unfold expei_beta. plist. Qed.
Lemma z12_a_ok_eq : replace (ei12_alpha (T := R)) 9 (nlit (-2645677793077147237806) 1000000000000000000000) = units unit25 z12_a_ok.
Proof. unfold replace, ei12_alpha, z12_a_ok. cbn [firstn skipn app]. tabu. Qed.
