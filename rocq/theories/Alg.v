(** Fields, vector spaces and a concrete prime field, shared by the algebraic
    models.  Field elements of the Rust code ([ark_ff::PrimeField]) are elements of
    an arbitrary [fld]; curve groups are vector spaces over it. *)
From Coq Require Import List Arith ZArith Lia Bool Znumtheory Field Eqdep_dec.
Import ListNotations.

Record fld := mk_fld {
  car :> Type;
  f0 : car; f1 : car;
  fadd : car -> car -> car; fmul : car -> car -> car; fsub : car -> car -> car;
  fopp : car -> car; fdiv : car -> car -> car; finv : car -> car;
  fth : field_theory f0 f1 fadd fmul fsub fopp fdiv finv eq;
  feqb : car -> car -> bool;
  feqb_eq : forall x y, feqb x y = true <-> x = y
}.
Arguments f0 {f}. Arguments f1 {f}. Arguments fadd {f}. Arguments fmul {f}.
Arguments fsub {f}. Arguments fopp {f}. Arguments fdiv {f}. Arguments finv {f}.
Arguments feqb {f}.

Declare Scope fld_scope.
Delimit Scope fld_scope with F.
Notation "0" := f0 : fld_scope.
Notation "1" := f1 : fld_scope.
Infix "+" := fadd : fld_scope.
Infix "*" := fmul : fld_scope.
Infix "-" := fsub : fld_scope.
Notation "- x" := (fopp x) : fld_scope.
Infix "/" := fdiv : fld_scope.
Bind Scope fld_scope with car.

Section Basic.
  Variable K : fld.
  Local Open Scope fld_scope.
  Add Field Kfield : (fth K).

  Lemma feqb_refl (x : K) : feqb x x = true.
  Proof. apply feqb_eq. reflexivity. Qed.
  Lemma feqb_neq (x y : K) : feqb x y = false <-> x <> y.
  Proof.
    destruct (feqb x y) eqn:H; split; intro G; try congruence.
    - apply feqb_eq in H. congruence.
    - intro E. apply feqb_eq in E. congruence.
  Qed.
  Lemma feq_dec (x y : K) : {x = y} + {x <> y}.
  Proof. destruct (feqb x y) eqn:H; [left; apply feqb_eq; auto|right; apply feqb_neq; auto]. Qed.

  Lemma f1_neq_0 : (1 : K) <> 0.
  Proof. apply (F_1_neq_0 (fth K)). Qed.

  Lemma fmul_eq_0 (x y : K) : x * y = 0 -> x = 0 \/ y = 0.
  Proof.
    intro H. destruct (feq_dec x 0) as [|Hx]; [auto|right].
    assert (E : y = (finv x) * (x * y)) by (field; auto).
    rewrite E, H. ring.
  Qed.
  Lemma fmul_neq_0 (x y : K) : x <> 0 -> y <> 0 -> x * y <> 0.
  Proof. intros Hx Hy H. apply fmul_eq_0 in H. tauto. Qed.
  Lemma fsub_eq_0 (x y : K) : x - y = 0 <-> x = y.
  Proof.
    split; intro H.
    - assert (E : x = (x - y) + y) by ring. rewrite E, H. ring.
    - subst. ring.
  Qed.
  Lemma fsub_0_eq (x y : K) : x - y = 0 -> x = y.
  Proof. apply fsub_eq_0. Qed.
  Lemma fadd_cancel_l (a x y : K) : a + x = a + y -> x = y.
  Proof. intro H. assert (E : x = (a + x) - a) by ring. rewrite E, H. ring. Qed.
  Lemma fmul_cancel_l (a x y : K) : a <> 0 -> a * x = a * y -> x = y.
  Proof.
    intros Ha H. assert (E : x = (finv a) * (a * x)) by (field; auto). rewrite E, H. field. auto.
  Qed.
  Lemma finv_neq_0 (x : K) : x <> 0 -> finv x <> 0.
  Proof.
    intros Hx H. apply f1_neq_0. assert (E : 1 = x * finv x) by (field; auto). rewrite E, H. ring.
  Qed.
  Lemma finv_l (x : K) : x <> 0 -> finv x * x = 1.
  Proof. intro. field. auto. Qed.
  Lemma finv_unique (x y : K) : x * y = 1 -> y = finv x.
  Proof.
    intro H. assert (x <> 0).
    { intro E. subst. apply f1_neq_0. rewrite <- H. ring. }
    apply (fmul_cancel_l x); auto. rewrite H. field. auto.
  Qed.
  Lemma fopp_eq_0 (x : K) : - x = 0 <-> x = 0.
  Proof.
    split; intro H; [|subst; ring]. assert (E : x = - (- x)) by ring. rewrite E, H. ring.
  Qed.

  (** [x.pow(n)]. *)
  Fixpoint fpow (x : K) (n : nat) : K :=
    match n with O => 1 | S n' => x * fpow x n' end.

  Lemma fpow_add x n m : fpow x (n + m) = fpow x n * fpow x m.
  Proof. induction n; simpl; [ring|rewrite IHn; ring]. Qed.
  Lemma fpow_mul x n m : fpow x (n * m) = fpow (fpow x n) m.
  Proof.
    induction m; simpl.
    - rewrite Nat.mul_0_r. reflexivity.
    - rewrite Nat.mul_succ_r, Nat.add_comm, fpow_add, IHm. reflexivity.
  Qed.
  Lemma fpow_mult_base x y n : fpow (x * y) n = fpow x n * fpow y n.
  Proof. induction n; simpl; [ring|rewrite IHn; ring]. Qed.
  Lemma fpow_1 n : fpow 1 n = 1.
  Proof. induction n; simpl; [reflexivity|rewrite IHn; ring]. Qed.
  Lemma fpow_0 n : (0 < n)%nat -> fpow 0 n = 0.
  Proof. destruct n; [lia|]. intros _. simpl. ring. Qed.
  Lemma fpow_neq_0 x n : x <> 0 -> fpow x n <> 0.
  Proof. intro H. induction n; simpl; [apply f1_neq_0|apply fmul_neq_0; auto]. Qed.
  Lemma fpow_S x n : fpow x (S n) = x * fpow x n.
  Proof. reflexivity. Qed.

  (** Sums and products over lists. *)
  Definition fsum (l : list K) : K := fold_right fadd 0 l.
  Definition fprod (l : list K) : K := fold_right fmul 1 l.

  Lemma fsum_app l l' : fsum (l ++ l') = fsum l + fsum l'.
  Proof. unfold fsum. induction l; simpl; [ring|rewrite IHl; ring]. Qed.
  Lemma fprod_app l l' : fprod (l ++ l') = fprod l * fprod l'.
  Proof. unfold fprod. induction l; simpl; [ring|rewrite IHl; ring]. Qed.
  Lemma fsum_cons x l : fsum (x :: l) = x + fsum l.
  Proof. reflexivity. Qed.
  Lemma fprod_cons x l : fprod (x :: l) = x * fprod l.
  Proof. reflexivity. Qed.
  Lemma fsum_map_add {A} (f g : A -> K) l :
    fsum (map (fun a => f a + g a) l) = fsum (map f l) + fsum (map g l).
  Proof. unfold fsum. induction l; simpl; [ring|rewrite IHl; ring]. Qed.
  Lemma fsum_map_scale {A} (c : K) (f : A -> K) l :
    fsum (map (fun a => c * f a) l) = c * fsum (map f l).
  Proof. unfold fsum. induction l; simpl; [ring|rewrite IHl; ring]. Qed.
  Lemma fsum_map_0 {A} (f : A -> K) l : (forall a, In a l -> f a = 0) -> fsum (map f l) = 0.
  Proof.
    unfold fsum. induction l as [|a l IH]; intro H; simpl; [reflexivity|].
    rewrite (H a) by (left; auto). rewrite IH; [ring|]. intros; apply H; right; auto.
  Qed.
  Lemma fsum_map_ext {A} (f g : A -> K) l : (forall a, In a l -> f a = g a) ->
    fsum (map f l) = fsum (map g l).
  Proof. intro H. f_equal. apply map_ext_in. auto. Qed.
  Lemma fprod_map_ext {A} (f g : A -> K) l : (forall a, In a l -> f a = g a) ->
    fprod (map f l) = fprod (map g l).
  Proof. intro H. f_equal. apply map_ext_in. auto. Qed.
  Lemma fprod_map_mul {A} (f g : A -> K) l :
    fprod (map (fun a => f a * g a) l) = fprod (map f l) * fprod (map g l).
  Proof. unfold fprod. induction l; simpl; [ring|rewrite IHl; ring]. Qed.
  Lemma fprod_neq_0 l : (forall x, In x l -> x <> 0) -> fprod l <> 0.
  Proof.
    induction l as [|x l IH]; intro H; [apply f1_neq_0|].
    rewrite fprod_cons. apply fmul_neq_0; [apply H; left; auto|]. apply IH.
    intros; apply H; right; auto.
  Qed.
  Lemma fprod_eq_0 l : fprod l = 0 -> In 0 l.
  Proof.
    induction l as [|x l IH]; intro H; [exfalso; apply f1_neq_0; exact H|].
    rewrite fprod_cons in H. apply fmul_eq_0 in H as [H|H]; [left; auto|right; auto].
  Qed.

  (** Embedding of the integers ([F::from(u64)]). *)
  Fixpoint fnat (n : nat) : K := match n with O => 0 | S n' => 1 + fnat n' end.
  Lemma fnat_add n m : fnat (n + m) = fnat n + fnat m.
  Proof. induction n; simpl; [ring|rewrite IHn; ring]. Qed.
  Lemma fnat_mul n m : fnat (n * m) = fnat n * fnat m.
  Proof. induction n; simpl; [ring|rewrite fnat_add, IHn; ring]. Qed.
  Lemma fnat_1 : fnat 1 = 1.
  Proof. simpl. ring. Qed.
  Definition fpos (p : positive) : K :=
    (fix go p := match p with
                 | xH => 1 | xO q => (1 + 1) * go q | xI q => 1 + (1 + 1) * go q
                 end) p.
  Definition fZ (z : Z) : K :=
    match z with Z0 => 0 | Zpos p => fpos p | Zneg p => - fpos p end.
  Lemma fpos_nat p : fpos p = fnat (Pos.to_nat p).
  Proof.
    induction p as [p IH|p IH|].
    - change (fpos p~1) with (1 + (1 + 1) * fpos p). rewrite IH.
      rewrite Pos2Nat.inj_xI. simpl. rewrite Nat.add_0_r, fnat_add. ring.
    - change (fpos p~0) with ((1 + 1) * fpos p). rewrite IH.
      rewrite Pos2Nat.inj_xO. simpl. rewrite Nat.add_0_r, fnat_add. ring.
    - simpl. ring.
  Qed.
  Lemma fZ_nat n : fZ (Z.of_nat n) = fnat n.
  Proof. destruct n; [reflexivity|]. simpl fZ. rewrite fpos_nat, SuccNat2Pos.id_succ. reflexivity. Qed.
  Lemma fpos_add p q : fpos (p + q) = fpos p + fpos q.
  Proof. rewrite !fpos_nat, Pos2Nat.inj_add, fnat_add. reflexivity. Qed.
  Lemma fpos_mul p q : fpos (p * q) = fpos p * fpos q.
  Proof. rewrite !fpos_nat, Pos2Nat.inj_mul, fnat_mul. reflexivity. Qed.
  Lemma fZ_pos_sub p q : fZ (Z.pos_sub p q) = fpos p - fpos q.
  Proof.
    rewrite Z.pos_sub_spec. destruct (Pos.compare_spec p q) as [->|H|H].
    - simpl. ring.
    - cbn [fZ]. replace (fpos q) with (fpos (p + (q - p))) by (f_equal; lia).
      rewrite fpos_add. ring.
    - cbn [fZ]. replace (fpos p) with (fpos (q + (p - q))) by (f_equal; lia).
      rewrite fpos_add. ring.
  Qed.
  Lemma fZ_add x y : fZ (x + y) = fZ x + fZ y.
  Proof.
    destruct x as [|p|p], y as [|q|q]; simpl; try ring; try (rewrite fpos_add; ring);
      rewrite fZ_pos_sub; ring.
  Qed.
  Lemma fZ_opp x : fZ (- x) = - fZ x.
  Proof. destruct x; simpl; ring. Qed.
  Lemma fZ_sub x y : fZ (x - y) = fZ x - fZ y.
  Proof. unfold Z.sub. rewrite fZ_add, fZ_opp. ring. Qed.
  Lemma fZ_mul x y : fZ (x * y) = fZ x * fZ y.
  Proof. destruct x as [|p|p], y as [|q|q]; simpl; try ring; rewrite fpos_mul; ring. Qed.
  Lemma fZ_1 : fZ 1 = 1.
  Proof. reflexivity. Qed.
End Basic.
Arguments fpow {K}. Arguments fsum {K}. Arguments fprod {K}. Arguments fnat {K}.
Arguments fZ {K}. Arguments feq_dec {K}.

(** Vector spaces: groups of prime order, written additively, with their scalar
    multiplication. *)
Record vsp (K : fld) := mk_vsp {
  vcar :> Type;
  v0 : vcar; vadd : vcar -> vcar -> vcar; vopp : vcar -> vcar; vmul : K -> vcar -> vcar;
  vadd_comm : forall x y, vadd x y = vadd y x;
  vadd_assoc : forall x y z, vadd x (vadd y z) = vadd (vadd x y) z;
  vadd_0_l : forall x, vadd v0 x = x;
  vadd_opp : forall x, vadd x (vopp x) = v0;
  vmul_1 : forall x, vmul f1 x = x;
  vmul_add_l : forall a b x, vmul (a + b)%F x = vadd (vmul a x) (vmul b x);
  vmul_add_r : forall a x y, vmul a (vadd x y) = vadd (vmul a x) (vmul a y);
  vmul_mul : forall a b x, vmul (a * b)%F x = vmul a (vmul b x);
  veqb : vcar -> vcar -> bool;
  veqb_eq : forall x y, veqb x y = true <-> x = y
}.
Arguments v0 {K v}. Arguments vadd {K v}. Arguments vopp {K v}. Arguments vmul {K v}.
Arguments veqb {K v}.

Declare Scope vsp_scope.
Delimit Scope vsp_scope with V.
Infix "+" := vadd : vsp_scope.
Notation "- x" := (vopp x) : vsp_scope.
Infix "•" := vmul (at level 38, right associativity) : vsp_scope.
Notation "x - y" := (vadd x (vopp y)) : vsp_scope.
Bind Scope vsp_scope with vcar.

Section Vsp.
  Variable K : fld.
  Variable V : vsp K.
  Local Open Scope vsp_scope.
  Add Field Kfield2 : (fth K).

  Lemma vadd_0_r (x : V) : x + v0 = x.
  Proof. rewrite vadd_comm. apply vadd_0_l. Qed.
  Lemma vadd_opp_l (x : V) : vopp x + x = v0.
  Proof. rewrite vadd_comm. apply vadd_opp. Qed.
  Lemma vadd_cancel_l (a x y : V) : a + x = a + y -> x = y.
  Proof.
    intro H. rewrite <- (vadd_0_l _ _ x), <- (vadd_0_l _ _ y), <- (vadd_opp_l a).
    rewrite <- !vadd_assoc, H. reflexivity.
  Qed.
  Lemma vmul_0_l (x : V) : (f0 : K) • x = v0.
  Proof.
    apply (vadd_cancel_l ((f0 : K) • x)). rewrite <- vmul_add_l, vadd_0_r. f_equal. ring.
  Qed.
  Lemma vmul_0_r (a : K) : a • (v0 : V) = v0.
  Proof.
    apply (vadd_cancel_l (a • v0)). rewrite <- vmul_add_r, vadd_0_l, vadd_0_r. reflexivity.
  Qed.
  Lemma vopp_unique (x y : V) : x + y = v0 -> y = vopp x.
  Proof. intro H. apply (vadd_cancel_l x). rewrite H, vadd_opp. reflexivity. Qed.
  Lemma vopp_mul (x : V) : vopp x = (fopp f1 : K) • x.
  Proof.
    symmetry. apply vopp_unique. rewrite <- (vmul_1 _ _ x) at 1. rewrite <- vmul_add_l.
    replace (f1 + - f1)%F with (f0 : K) by ring. apply vmul_0_l.
  Qed.
  Lemma vopp_scal (a : K) (x : V) : vopp (a • x) = (fopp a) • x.
  Proof. rewrite vopp_mul, <- vmul_mul. f_equal. ring. Qed.
  Lemma vmul_opp_r (a : K) (x : V) : a • vopp x = (fopp a) • x.
  Proof. rewrite vopp_mul, <- vmul_mul. f_equal. ring. Qed.
  Lemma vopp_add (x y : V) : vopp (x + y) = vopp x + vopp y.
  Proof. rewrite !vopp_mul, vmul_add_r. reflexivity. Qed.
  Lemma vopp_opp (x : V) : vopp (vopp x) = x.
  Proof. symmetry. apply vopp_unique. apply vadd_opp_l. Qed.
  Lemma vopp_0 : vopp (v0 : V) = v0.
  Proof. symmetry. apply vopp_unique. apply vadd_0_l. Qed.
  Lemma vsub_eq (x y : V) : x + vopp y = v0 <-> x = y.
  Proof.
    split; intro H.
    - apply (vadd_cancel_l (vopp y)). rewrite vadd_opp_l, vadd_comm. exact H.
    - subst. apply vadd_opp.
  Qed.
  Lemma vmul_cancel (a : K) (x y : V) : a <> f0 -> a • x = a • y -> x = y.
  Proof.
    intros Ha H. rewrite <- (vmul_1 _ _ x), <- (vmul_1 _ _ y).
    replace f1 with (finv a * a)%F by (field; auto). rewrite !vmul_mul, H. reflexivity.
  Qed.
  Lemma vmul_eq_0 (a : K) (x : V) : a • x = v0 -> a = f0 \/ x = v0.
  Proof.
    intro H. destruct (feq_dec a f0) as [|Ha]; [auto|right].
    apply (vmul_cancel a); auto. rewrite H, vmul_0_r. reflexivity.
  Qed.
  Lemma vadd_swap (x y z : V) : x + (y + z) = y + (x + z).
  Proof. rewrite !vadd_assoc, (vadd_comm _ _ x y). reflexivity. Qed.

  Definition vsum (l : list V) : V := fold_right vadd v0 l.
  Lemma vsum_app l l' : vsum (l ++ l') = vsum l + vsum l'.
  Proof.
    unfold vsum. induction l; simpl; [rewrite vadd_0_l; auto|rewrite IHl, vadd_assoc; auto].
  Qed.
  Lemma vsum_cons x l : vsum (x :: l) = x + vsum l.
  Proof. reflexivity. Qed.
  (** [msm(bases, scalars)]: truncates to the shorter list, like arkworks'
      [msm_bigint] / [zip]. *)
  Definition msm (bs : list V) (ss : list K) : V :=
    vsum (map (fun bs => snd bs • fst bs) (combine bs ss)).
  Lemma vmul_vsum (a : K) l : a • vsum l = vsum (map (vmul a) l).
  Proof.
    unfold vsum. induction l; simpl; [apply vmul_0_r|rewrite vmul_add_r, IHl; auto].
  Qed.
  Lemma vsum_scal (g : V) (l : list K) : vsum (map (fun a => a • g) l) = fsum l • g.
  Proof.
    unfold vsum, fsum. induction l; simpl; [rewrite vmul_0_l; auto|].
    rewrite IHl, vmul_add_l. reflexivity.
  Qed.
  Lemma vsum_map_add {A} (f g : A -> V) l :
    vsum (map (fun a => f a + g a) l) = vsum (map f l) + vsum (map g l).
  Proof.
    unfold vsum. induction l; simpl; [rewrite vadd_0_l; auto|].
    rewrite IHl, <- !vadd_assoc. f_equal. apply vadd_swap.
  Qed.
  Lemma vsum_map_ext {A} (f g : A -> V) l : (forall a, In a l -> f a = g a) ->
    vsum (map f l) = vsum (map g l).
  Proof. intro H. f_equal. apply map_ext_in. auto. Qed.
End Vsp.
Arguments vsum {K V}. Arguments msm {K V}.

(** Every field is a vector space over itself. *)
Section SelfVsp.
  Variable K : fld.
  Add Field Kfield3 : (fth K).
  Definition self_vsp : vsp K.
  Proof.
    refine (@mk_vsp K K f0 fadd fopp fmul _ _ _ _ _ _ _ _ feqb (feqb_eq K)); intros; ring.
  Defined.
End SelfVsp.

(** A non-degenerate bilinear map ([Pairing::pairing]). *)
Record pairing (K : fld) (V1 V2 VT : vsp K) := mk_pairing {
  pe :> V1 -> V2 -> VT;
  pe_add_l : forall x y z, pe (vadd x y) z = vadd (pe x z) (pe y z);
  pe_add_r : forall x y z, pe x (vadd y z) = vadd (pe x y) (pe x z);
  pe_mul_l : forall a x y, pe (vmul a x) y = vmul a (pe x y);
  pe_mul_r : forall a x y, pe x (vmul a y) = vmul a (pe x y)
}.
Arguments pe {K V1 V2 VT}.

(** ** The integers modulo a prime, for concrete examples *)
Section Zp.
  Local Open Scope Z_scope.
  Variable p : Z.
  Hypothesis Hp : prime p.
  Record zp := mk_zp { zv : Z; zok : (zv =? zv mod p) = true }.

  Lemma zp_ext (a b : zp) : zv a = zv b -> a = b.
  Proof.
    destruct a as [a Ha], b as [b Hb]. simpl. intros ->. f_equal. apply UIP_dec. apply bool_dec.
  Qed.
  Lemma zmod_ok z : (z mod p =? (z mod p) mod p) = true.
  Proof. apply Z.eqb_eq. rewrite Zmod_mod. reflexivity. Qed.
  Definition zmk (z : Z) : zp := mk_zp (z mod p) (zmod_ok z).
  Lemma zv_mod (a : zp) : zv a mod p = zv a.
  Proof. destruct a as [a Ha]. simpl. apply Z.eqb_eq in Ha. auto. Qed.
  Lemma zmk_eq a b : a mod p = b mod p -> zmk a = zmk b.
  Proof. intro H. apply zp_ext. exact H. Qed.
  Lemma zmk_zv (a : zp) : zmk (zv a) = a.
  Proof. apply zp_ext. simpl. apply zv_mod. Qed.

  (** Extended Euclid; [fuel] is at least [b]. *)
  Fixpoint egcd (fuel : nat) (a b : Z) : Z * Z :=
    match fuel with
    | O => (1, 0)
    | S n => if b =? 0 then (1, 0)
             else let '(x, y) := egcd n b (a mod b) in (y, x - (a / b) * y)
    end.
  Lemma egcd_ok fuel : forall a b, 0 <= b -> (Z.to_nat b <= fuel)%nat -> 0 <= a ->
    let '(x, y) := egcd fuel a b in a * x + b * y = Z.gcd a b.
  Proof.
    induction fuel as [|n IH]; intros a b Hb Hf Ha; simpl.
    - assert (b = 0) by lia. subst. rewrite Z.gcd_0_r. lia.
    - destruct (Z.eqb_spec b 0) as [->|Hb0]; [rewrite Z.gcd_0_r; lia|].
      assert (Hm : 0 <= a mod b < b) by (apply Z.mod_pos_bound; lia).
      specialize (IH b (a mod b) ltac:(lia) ltac:(lia) ltac:(lia)).
      destruct (egcd n b (a mod b)) as [x y].
      rewrite Z.gcd_comm, <- Z.gcd_mod, Z.gcd_comm by lia.
      rewrite <- IH. rewrite (Z.mod_eq a b) by lia. ring.
  Qed.
  Definition zinv (a : zp) : zp := zmk (snd (egcd (Z.to_nat p) p (zv a))).

  Lemma zinv_ok (a : zp) : zv a <> 0 -> (zv (zinv a) * zv a) mod p = 1 mod p.
  Proof.
    intro Ha. pose proof (prime_ge_2 _ Hp). pose proof (Z.mod_pos_bound (zv a) p ltac:(lia)) as Hb.
    rewrite zv_mod in Hb.
    pose proof (egcd_ok (Z.to_nat p) p (zv a) ltac:(lia) ltac:(lia) ltac:(lia)) as G.
    unfold zinv. simpl. destruct (egcd (Z.to_nat p) p (zv a)) as [x y]. simpl.
    assert (Hg : Z.gcd p (zv a) = 1).
    { apply Zgcd_1_rel_prime. apply rel_prime_sym. apply rel_prime_le_prime; auto. lia. }
    rewrite Hg in G. rewrite Z.mul_mod_idemp_l by lia.
    replace (y * zv a) with (1 + (- x) * p) by lia. apply Z_mod_plus_full.
  Qed.

  Definition Zp : fld.
  Proof.
    refine (@mk_fld zp (zmk 0) (zmk 1) (fun a b => zmk (zv a + zv b)) (fun a b => zmk (zv a * zv b))
              (fun a b => zmk (zv a - zv b)) (fun a => zmk (- zv a))
              (fun a b => zmk (zv a * zv (zinv b))) zinv _ (fun a b => zv a =? zv b) _).
    - pose proof (prime_ge_2 _ Hp). split.
      + constructor; intros; apply zp_ext; cbn [zv zmk]; unfold Z.sub;
          rewrite ?Zplus_mod_idemp_l, ?Zplus_mod_idemp_r, ?Zmult_mod_idemp_l, ?Zmult_mod_idemp_r,
            ?Zplus_mod_idemp_l, ?Zplus_mod_idemp_r.
        * simpl. apply zv_mod.
        * f_equal; ring.
        * f_equal; ring.
        * rewrite Z.mul_1_l. apply zv_mod.
        * f_equal; ring.
        * f_equal; ring.
        * f_equal; ring.
        * reflexivity.
        * f_equal; ring.
      + intro E. apply (f_equal zv) in E. simpl in E. rewrite Zmod_0_l, Z.mod_1_l in E by lia. lia.
      + intros a b. reflexivity.
      + intros a Ha. apply zp_ext. cbn [zv zmk]. rewrite zinv_ok.
        * reflexivity.
        * intro E. apply Ha. apply zp_ext. simpl. rewrite Zmod_0_l. exact E.
    - intros a b. rewrite Z.eqb_eq. split; [apply zp_ext|intros ->; reflexivity].
  Defined.
End Zp.

(** Deciding primality of small numbers by computation. *)
Definition primeb (p : Z) : bool :=
  (1 <? p)%Z && forallb (fun n => negb (Z.of_nat n + 2 <? p)%Z || (Z.gcd p (Z.of_nat n + 2) =? 1)%Z) (seq 0 (Z.to_nat p)).
Lemma primeb_prime p : primeb p = true -> prime p.
Proof.
  unfold primeb. rewrite andb_true_iff, Z.ltb_lt, forallb_forall. intros [H1 H2]. constructor; [auto|].
  intros n Hn. apply rel_prime_sym, Zgcd_1_rel_prime. destruct (Z.eq_dec n 1) as [->|]; [apply Z.gcd_1_r|].
  specialize (H2 (Z.to_nat (n - 2))). rewrite Z2Nat.id in H2 by lia.
  replace (n - 2 + 2)%Z with n in H2 by lia.
  rewrite in_seq in H2. specialize (H2 ltac:(lia)).
  apply orb_prop in H2 as [H2|H2].
  - apply negb_true_iff in H2. apply Z.ltb_ge in H2. lia.
  - apply Z.eqb_eq in H2. exact H2.
Qed.
Lemma prime_97 : prime 97.
Proof. apply primeb_prime. vm_compute. reflexivity. Qed.
Lemma prime_17 : prime 17.
Proof. apply primeb_prime. vm_compute. reflexivity. Qed.
(** The example field. *)
Definition F97 : fld := Zp 97 prime_97.
Definition F17 : fld := Zp 17 prime_17.
Definition e97 (z : Z) : F97 := zmk 97 z.
Definition e17 (z : Z) : F17 := zmk 17 z.
