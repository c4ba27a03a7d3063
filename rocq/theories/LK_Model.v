(** How correctness of passes is stated, composed and extended to separate compilation.
    Source: /repo/theories/common/compM.v:130-165, 477-506 and /repo/theories/common/Pipeline_utils.v:140-474.

    Simplified: classes are records and are passed explicitly; the monad is that of Comp_Model.v. *)
From Coq Require Import List Bool.
From Verif Require Import Comp_Model.
Import ListNotations.

(** compM.v:134-143 *)
Definition triple {R W A} (pre : R -> W -> Prop) (m : compM R W A) (post : R -> W -> A -> W -> Prop) : Prop :=
  forall r w, pre r w ->
    let '(x, w') := m r w in
    match x with
    | Err _ => False
    | Ret x => post r w x w'
    end.

(** compM.v:146-156 *)
Definition bitriple {R W A} (pre : (R * W) -> (R * W) -> Prop) (m1 m2 : compM R W A)
           (post : (R * W * W) -> (R * W * W) -> A -> A -> Prop) : Prop :=
  forall r1 w1 r2 w2, pre (r1, w1) (r2, w2) ->
    let '(x1, w1') := m1 r1 w1 in
    let '(x2, w2') := m2 r2 w2 in
    match x1, x2 with
    | Err _, Err _ => True
    | Ret x1, Ret x2 => post (r1, w1, w1') (r2, w2, w2') x1 x2
    | _, _ => False
    end.

(** compM.v:22-30 *)
Fixpoint sequence {R W A} (l : list (compM R W A)) : compM R W (list A) :=
  match l with
  | [] => ret []
  | x :: xs => bind x (fun x' => bind (sequence xs) (fun xs' => ret (x' :: xs')))
  end.

(** Pipeline_utils.v:146-149 *)
Record Lang (Term : Type) := mkLang
  { Value : Type; TermWf : Term -> Prop; BigStep : Term -> Value -> Prop }.
Arguments Value {_} _.
Arguments TermWf {_} _ _.
Arguments BigStep {_} _ _ _.

(** Pipeline_utils.v:185-190 *)
Definition WfPreserving {Src Trg} (Hs : Lang Src) (Hd : Lang Trg) (trans : CertiRocqTrans Src Trg) : Prop :=
  forall src, TermWf Hs src ->
    triple (fun r w => True) (trans src) (fun r w trg w' => TermWf Hd trg).

(** Pipeline_utils.v:193-194 *)
Definition obs_eq {Src Trg} (Hs : Lang Src) (Hd : Lang Trg) := Value Hs -> Value Hd -> Prop.

(** Pipeline_utils.v:203-205 *)
Definition ForwardSim {Src Trg} (Hs : Lang Src) (Hd : Lang Trg) (R : obs_eq Hs Hd) (src : Src) (trg : Trg) : Prop :=
  forall v_src, BigStep Hs src v_src -> exists v_trg, BigStep Hd trg v_trg /\ R v_src v_trg.

(** Pipeline_utils.v:208-213 *)
Definition SemPreserving {Src Trg} (Hs : Lang Src) (Hd : Lang Trg) (R : obs_eq Hs Hd) (trans : CertiRocqTrans Src Trg) : Prop :=
  forall src, TermWf Hs src ->
    triple (fun r w => True) (trans src) (fun r w trg w' => ForwardSim Hs Hd R src trg).

(** Pipeline_utils.v:231-232 *)
Definition compose {A B C : Type} (R1 : A -> B -> Prop) (R2 : B -> C -> Prop) : A -> C -> Prop :=
  fun a c => exists b, R1 a b /\ R2 b c.

(** Pipeline_utils.v:253, 269, 418, 431: two passes, one after the other *)
Definition then_ {Src Int Trg} (t1 : CertiRocqTrans Src Int) (t2 : CertiRocqTrans Int Trg) : CertiRocqTrans Src Trg :=
  fun s => bind (t1 s) (fun i => t2 i).

(** Pipeline_utils.v:304-309 *)
Definition Commutes {Src Trg} (Hs : Lang Src) (op_src : Src -> Src -> Src) (op_trg : Trg -> Trg -> Trg)
           (trans : CertiRocqTrans Src Trg) : Prop :=
  forall r src1 src2 trg1 trg2,
    TermWf Hs src1 -> TermWf Hs src2 ->
    triple (fun r' w' => r = r') (trans src1) (fun r w trg w' => trg = trg1) ->
    triple (fun r' w' => r = r') (trans src2) (fun r w trg w' => trg = trg2) ->
    triple (fun r' w' => r = r') (trans (op_src src1 src2)) (fun r w trg w' => trg = op_trg trg1 trg2).

(** Pipeline_utils.v:312-314 *)
Definition Compositional {Src} (op_src : Src -> Src -> Src) (R : Src -> Prop) : Prop :=
  forall src1 src2, R src1 -> R src2 -> R (op_src src1 src2).

(** Pipeline_utils.v:318-319 *)
Definition ForwardSimLink {Src Trg} (Hs : Lang Src) (Hd : Lang Trg) (op_src : Src -> Src -> Src) (op_trg : Trg -> Trg -> Trg)
           (R : obs_eq Hs Hd) (src1 src2 : Src) (trg1 trg2 : Trg) : Prop :=
  ForwardSim Hs Hd R (op_src src1 src2) (op_trg trg1 trg2).

(** Pipeline_utils.v:322-328 *)
Definition SepCompSemPreserving {Src Trg} (Hs : Lang Src) (Hd : Lang Trg) (op_src : Src -> Src -> Src)
           (op_trg : Trg -> Trg -> Trg) (R : obs_eq Hs Hd) (trans : CertiRocqTrans Src Trg) : Prop :=
  forall src1 src2, TermWf Hs src1 -> TermWf Hs src2 ->
    bitriple (fun s1 s2 => s1 = s2) (trans src1) (trans src2)
      (fun s1' s2' trg1 trg2 => ForwardSimLink Hs Hd op_src op_trg R src1 src2 trg1 trg2).
