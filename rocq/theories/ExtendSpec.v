(** Specification of declarations with more variants, in another order. *)
From Coq Require Import String NArith.
From stdpp Require Import prelude list strings relations.
From Verif Require Import LexModel SynSetModel TypeModel ProduceModel ParseSpec.
Local Open Scope nat_scope.

(** Every struct of [env] is the same in [env'], every variant [i] of every enum [n] of [env] is variant [ρ n i] in [env']. *)
Definition extends (ρ : nat → nat → nat) (env env' : denv) : Prop :=
  ∀ n d, env !! n = Some d →
    match d with
    | DStruct _ => env' !! n = Some d
    | DEnum vs => ∃ vs', env' !! n = Some (DEnum vs') ∧ ∀ i v, vs !! i = Some v → vs' !! ρ n i = Some v
    end.

(** Different variants stay different. *)
Definition apart (ρ : nat → nat → nat) (env : denv) : Prop :=
  ∀ n vs i j, env !! n = Some (DEnum vs) → i < length vs → j < length vs → ρ n i = ρ n j → i = j.

(** The type inside all boxes. *)
Fixpoint unbox (t : ty) : ty := match t with TBox u => unbox u | _ => t end.
(** A tree of type [t] of [env] with the variants numbered as in [env']; nothing else changes. *)
Fixpoint renum (ρ : nat → nat → nat) (env : denv) (t : ty) (x : tree) {struct x} : tree :=
  match x, unbox t with
  | TrVar i y, TNamed n =>
      match env !! n with
      | Some (DEnum vs) => match vs !! i with Some v => TrVar (ρ n i) (renum ρ env (fst v) y) | None => x end
      | _ => x
      end
  | TrSeq xs, TNamed n => match env !! n with Some (DStruct fs) => TrSeq ((fix go (ts : list ty) (xs : list tree) {struct xs} : list tree := match ts, xs with t :: ts, x :: xs => renum ρ env t x :: go ts xs | _, _ => xs end)
        (map fst fs) xs) | _ => x end
  | TrSeq xs, TTuple ts => TrSeq ((fix go (ts : list ty) (xs : list tree) {struct xs} : list tree := match ts, xs with t :: ts, x :: xs => renum ρ env t x :: go ts xs | _, _ => xs end)
        ts xs)
  | TrOpt sp (Some y), TOpt u => TrOpt sp (Some (renum ρ env u y))
  | TrList sp xs, (TPlus u | TStar u | TLoop u) => TrList sp (map (renum ρ env u) xs)
  | TrSplit sp a b, TSplit u d => TrSplit sp (map (renum ρ env u) a) (map (renum ρ env d) b)
  | TrPunct sp a b, TPunct u d => TrPunct sp (map (renum ρ env u) a) (map (renum ρ env d) b)
  | TrRecover sp (Some y) z, TRecover u r => TrRecover sp (Some (renum ρ env u y)) (renum ρ env r z)
  | TrRecover sp None z, TRecover u r => TrRecover sp None (renum ρ env r z)
  | _, _ => x
  end.
