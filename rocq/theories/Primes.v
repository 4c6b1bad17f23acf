(** The moduli of the fields for which the library ships parameters are prime
    (the constants are those of RescueConst.v). *)
From Coq Require Import List ZArith Znumtheory.
From Verif Require Import Base Alg Pocklington RescueModel RescueConst RescueProps.
Import ListNotations.
Local Open Scope Z_scope.

Lemma prime_2 : prime 2. Proof. apply primeb_prime. vm_compute. reflexivity. Qed.
Lemma prime_3 : prime 3. Proof. apply primeb_prime. vm_compute. reflexivity. Qed.
Lemma prime_7 : prime 7. Proof. apply primeb_prime. vm_compute. reflexivity. Qed.
Lemma prime_11 : prime 11. Proof. apply primeb_prime. vm_compute. reflexivity. Qed.
Lemma prime_17 : prime 17. Proof. apply primeb_prime. vm_compute. reflexivity. Qed.
Lemma prime_41 : prime 41. Proof. apply primeb_prime. vm_compute. reflexivity. Qed.
Lemma prime_2521 : prime 2521.
Proof.
  apply (pocklington _ 17 [(3, 1); (2, 2)]); [vm_cast_no_check (eq_refl true)|].
  repeat (constructor; [first [exact prime_3 | exact prime_2]|]). constructor.
Qed.
Lemma prime_71924131 : prime 71924131.
Proof.
  apply (pocklington3 _ 2 [(2521, 0)]); [vm_cast_no_check (eq_refl true)|].
  repeat (constructor; [first [exact prime_2521]|]). constructor.
Qed.
Lemma prime_6633514200929891813 : prime 6633514200929891813.
Proof.
  apply (pocklington3 _ 2 [(71924131, 0)]); [vm_cast_no_check (eq_refl true)|].
  repeat (constructor; [first [exact prime_71924131]|]). constructor.
Qed.
Lemma prime_71 : prime 71.
Proof.
  apply (pocklington3 _ 2 [(7, 0)]); [vm_cast_no_check (eq_refl true)|].
  repeat (constructor; [first [exact prime_7]|]). constructor.
Qed.
Lemma prime_2557 : prime 2557.
Proof.
  apply (pocklington _ 2 [(71, 0)]); [vm_cast_no_check (eq_refl true)|].
  repeat (constructor; [first [exact prime_71]|]). constructor.
Qed.
Lemma prime_83 : prime 83.
Proof.
  apply (pocklington _ 2 [(41, 0)]); [vm_cast_no_check (eq_refl true)|].
  repeat (constructor; [first [exact prime_41]|]). constructor.
Qed.
Lemma prime_499 : prime 499.
Proof.
  apply (pocklington _ 2 [(83, 0)]); [vm_cast_no_check (eq_refl true)|].
  repeat (constructor; [first [exact prime_83]|]). constructor.
Qed.
Lemma prime_258664426012969094010652733694893533536393512754914660539884262666720468348340822774968888139573360124440321458177 : prime 258664426012969094010652733694893533536393512754914660539884262666720468348340822774968888139573360124440321458177.
Proof.
  apply (pocklington3 _ 5 [(6633514200929891813, 0); (2, 45); (2557, 0); (499, 0)]); [vm_cast_no_check (eq_refl true)|].
  repeat (constructor; [first [exact prime_6633514200929891813 | exact prime_2 | exact prime_2557 | exact prime_499]|]). constructor.
Qed.
Lemma prime_127 : prime 127.
Proof.
  apply (pocklington3 _ 3 [(3, 1)]); [vm_cast_no_check (eq_refl true)|].
  repeat (constructor; [first [exact prime_3]|]). constructor.
Qed.
Lemma prime_3557 : prime 3557.
Proof.
  apply (pocklington _ 2 [(127, 0)]); [vm_cast_no_check (eq_refl true)|].
  repeat (constructor; [first [exact prime_127]|]). constructor.
Qed.
Lemma prime_1263766531 : prime 1263766531.
Proof.
  apply (pocklington3 _ 2 [(3557, 0)]); [vm_cast_no_check (eq_refl true)|].
  repeat (constructor; [first [exact prime_3557]|]). constructor.
Qed.
Lemma prime_35385462869 : prime 35385462869.
Proof.
  apply (pocklington _ 2 [(1263766531, 0)]); [vm_cast_no_check (eq_refl true)|].
  repeat (constructor; [first [exact prime_1263766531]|]). constructor.
Qed.
Lemma prime_2480874801745591 : prime 2480874801745591.
Proof.
  apply (pocklington _ 2 [(35385462869, 0)]); [vm_cast_no_check (eq_refl true)|].
  repeat (constructor; [first [exact prime_35385462869]|]). constructor.
Qed.
Lemma prime_13427688667394608761327070753331941386769 : prime 13427688667394608761327070753331941386769.
Proof.
  apply (pocklington3 _ 2 [(2480874801745591, 0)]); [vm_cast_no_check (eq_refl true)|].
  repeat (constructor; [first [exact prime_2480874801745591]|]). constructor.
Qed.
Lemma prime_21888242871839275222246405745257275088696311157297823662689037894645226208583 : prime 21888242871839275222246405745257275088696311157297823662689037894645226208583.
Proof.
  apply (pocklington _ 2 [(13427688667394608761327070753331941386769, 0)]); [vm_cast_no_check (eq_refl true)|].
  repeat (constructor; [first [exact prime_13427688667394608761327070753331941386769]|]). constructor.
Qed.
Lemma prime_9586122913090633729 : prime 9586122913090633729.
Proof.
  apply (pocklington _ 11 [(2, 45)]); [vm_cast_no_check (eq_refl true)|].
  repeat (constructor; [first [exact prime_2]|]). constructor.
Qed.
Lemma prime_8444461749428370424248824938781546531375899335154063827935233455917409239041 : prime 8444461749428370424248824938781546531375899335154063827935233455917409239041.
Proof.
  apply (pocklington _ 2 [(9586122913090633729, 1)]); [vm_cast_no_check (eq_refl true)|].
  repeat (constructor; [first [exact prime_9586122913090633729]|]). constructor.
Qed.
Lemma prime_89 : prime 89.
Proof.
  apply (pocklington _ 2 [(11, 0)]); [vm_cast_no_check (eq_refl true)|].
  repeat (constructor; [first [exact prime_11]|]). constructor.
Qed.
Lemma prime_179 : prime 179.
Proof.
  apply (pocklington _ 2 [(89, 0)]); [vm_cast_no_check (eq_refl true)|].
  repeat (constructor; [first [exact prime_89]|]). constructor.
Qed.
Lemma prime_359 : prime 359.
Proof.
  apply (pocklington _ 2 [(179, 0)]); [vm_cast_no_check (eq_refl true)|].
  repeat (constructor; [first [exact prime_179]|]). constructor.
Qed.
Lemma prime_110573 : prime 110573.
Proof.
  apply (pocklington _ 2 [(359, 0)]); [vm_cast_no_check (eq_refl true)|].
  repeat (constructor; [first [exact prime_359]|]). constructor.
Qed.
Lemma prime_2653753 : prime 2653753.
Proof.
  apply (pocklington _ 2 [(110573, 0)]); [vm_cast_no_check (eq_refl true)|].
  repeat (constructor; [first [exact prime_110573]|]). constructor.
Qed.
Lemma prime_63690073 : prime 63690073.
Proof.
  apply (pocklington _ 2 [(2653753, 0)]); [vm_cast_no_check (eq_refl true)|].
  repeat (constructor; [first [exact prime_2653753]|]). constructor.
Qed.
Lemma prime_254760293 : prime 254760293.
Proof.
  apply (pocklington _ 2 [(63690073, 0)]); [vm_cast_no_check (eq_refl true)|].
  repeat (constructor; [first [exact prime_63690073]|]). constructor.
Qed.
Lemma prime_73 : prime 73.
Proof.
  apply (pocklington _ 2 [(3, 1)]); [vm_cast_no_check (eq_refl true)|].
  repeat (constructor; [first [exact prime_3]|]). constructor.
Qed.
Lemma prime_1607 : prime 1607.
Proof.
  apply (pocklington _ 2 [(73, 0)]); [vm_cast_no_check (eq_refl true)|].
  repeat (constructor; [first [exact prime_73]|]). constructor.
Qed.
Lemma prime_906349 : prime 906349.
Proof.
  apply (pocklington _ 2 [(1607, 0)]); [vm_cast_no_check (eq_refl true)|].
  repeat (constructor; [first [exact prime_1607]|]). constructor.
Qed.
Lemma prime_52435875175126190479447740508185965837690552500527637822603658699938581184513 : prime 52435875175126190479447740508185965837690552500527637822603658699938581184513.
Proof.
  apply (pocklington3 _ 2 [(254760293, 1); (906349, 1)]); [vm_cast_no_check (eq_refl true)|].
  repeat (constructor; [first [exact prime_254760293 | exact prime_906349]|]). constructor.
Qed.
Lemma prime_409 : prime 409.
Proof.
  apply (pocklington3 _ 2 [(17, 0)]); [vm_cast_no_check (eq_refl true)|].
  repeat (constructor; [first [exact prime_17]|]). constructor.
Qed.
Lemma prime_1637 : prime 1637.
Proof.
  apply (pocklington _ 2 [(409, 0)]); [vm_cast_no_check (eq_refl true)|].
  repeat (constructor; [first [exact prime_409]|]). constructor.
Qed.
Lemma prime_639533339 : prime 639533339.
Proof.
  apply (pocklington3 _ 2 [(1637, 0)]); [vm_cast_no_check (eq_refl true)|].
  repeat (constructor; [first [exact prime_1637]|]). constructor.
Qed.
Lemma prime_65865678001877903 : prime 65865678001877903.
Proof.
  apply (pocklington _ 2 [(639533339, 0)]); [vm_cast_no_check (eq_refl true)|].
  repeat (constructor; [first [exact prime_639533339]|]). constructor.
Qed.
Lemma prime_13818364434197438864469338081 : prime 13818364434197438864469338081.
Proof.
  apply (pocklington _ 2 [(65865678001877903, 0)]); [vm_cast_no_check (eq_refl true)|].
  repeat (constructor; [first [exact prime_65865678001877903]|]). constructor.
Qed.
Lemma prime_21888242871839275222246405745257275088548364400416034343698204186575808495617 : prime 21888242871839275222246405745257275088548364400416034343698204186575808495617.
Proof.
  apply (pocklington3 _ 2 [(13818364434197438864469338081, 0)]); [vm_cast_no_check (eq_refl true)|].
  repeat (constructor; [first [exact prime_13818364434197438864469338081]|]). constructor.
Qed.

Theorem prime_Bls377Fq : prime (rc_p rescue_Bls377Fq).
Proof. exact prime_258664426012969094010652733694893533536393512754914660539884262666720468348340822774968888139573360124440321458177. Qed.
Theorem prime_Bn254Fq : prime (rc_p rescue_Bn254Fq).
Proof. exact prime_21888242871839275222246405745257275088696311157297823662689037894645226208583. Qed.
Theorem prime_Ed377Fq : prime (rc_p rescue_Ed377Fq).
Proof. exact prime_8444461749428370424248824938781546531375899335154063827935233455917409239041. Qed.
Theorem prime_Ed381Fq : prime (rc_p rescue_Ed381Fq).
Proof. exact prime_52435875175126190479447740508185965837690552500527637822603658699938581184513. Qed.
Theorem prime_Ed254Fq : prime (rc_p rescue_Ed254Fq).
Proof. exact prime_21888242871839275222246405745257275088548364400416034343698204186575808495617. Qed.

(** Every parameter set of the crate is for a prime field. *)
Theorem C37_shipped_fields : Forall (fun c => prime (rc_p c)) shipped.
Proof.
  unfold shipped. apply Forall_cons; [exact prime_Bls377Fq|]. apply Forall_cons; [exact prime_Bn254Fq|]. apply Forall_cons; [exact prime_Ed377Fq|].
  apply Forall_cons; [exact prime_Ed381Fq|]. apply Forall_cons; [exact prime_Ed254Fq|]. apply Forall_nil.
Qed.
Print Assumptions C37_shipped_fields.
