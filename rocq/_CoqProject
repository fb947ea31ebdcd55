-Q theories Verif
theories/F64.v
theories/Util.v
theories/FindResult_Model.v
theories/FindResult_Spec.v
theories/FindResult_Proofs.v
theories/Properties_FindResult.v
theories/UpdateData_Model.v
theories/UpdateData_Spec.v
theories/UpdateData_Proofs.v
theories/Properties_UpdateData.v
theories/F64_Extra.v
theories/Ego_Model.v
theories/Ego_Spec.v
theories/Ego_Proofs.v
theories/Ego_Run.v
theories/Ego_Examples.v
theories/Trego_Model.v
theories/Trego_Proofs.v
theories/Properties_Ego.v
theories/Restart_Model.v
theories/Restart_Spec.v
theories/Restart_Proofs.v
theories/Properties_Restart.v
theories/Coego_Model.v
theories/Coego_Spec.v
theories/Coego_Proofs.v
theories/Properties_Coego.v
theories/Mixint_Model.v
theories/Mixint_Spec.v
theories/Mixint_Proofs.v
theories/Properties_Mixint.v
theories/F64_Round.v
theories/Doe_Model.v
theories/Doe_Spec.v
theories/Doe_Generic.v
theories/Doe_Real.v
theories/Doe_Optim.v
theories/Doe_F64.v
theories/Doe_FF.v
theories/Properties_Doe.v
theories/RVec.v
theories/Gmx_Model.v
theories/Gmx_Spec.v
theories/Gmx_Proofs.v
theories/Moe_Model.v
theories/Moe_Spec.v
theories/Moe_Proofs.v
theories/Moe_Train.v
theories/Properties_Moe.v
theories/Kern_Model.v
theories/Kern_Spec.v
theories/Kern_Proofs.v
theories/Gp_Model.v
theories/Gp_Spec.v
theories/Gp_Lin.v
theories/Gp_Proofs.v
theories/Gp_Grad.v
theories/Gp_Inv.v
theories/Gp_Exist.v
theories/Properties_Gp.v
theories/Tune_Model.v
theories/Tune_Spec.v
theories/Tune_Proofs.v
theories/Properties_Tune.v
theories/Sgp_Model.v
theories/Sgp_Spec.v
theories/Sgp_Proofs.v
theories/Sgp_Det.v
theories/Properties_Sgp.v
theories/Normal.v
theories/Crit_Model.v
theories/Crit_Spec.v
theories/Crit_Proofs.v
theories/Properties_Crit.v
theories/CritF64_Model.v
theories/Properties_CritF64.v
theories/Start_Model.v
theories/Start_Spec.v
theories/Start_Proofs.v
theories/Properties_Start.v
theories/Sched_Model.v
theories/Sched_Spec.v
theories/Sched_Proofs.v
theories/Properties_Sched.v
theories/Hist_Model.v
theories/Properties_Hist.v
theories/Misc_Model.v
theories/Misc_Proofs.v
theories/Properties_Misc.v
theories/Kern_Pd.v
theories/Pd_Proofs.v
theories/Properties_Pd.v
theories/Nbc_Model.v
theories/Nbc_Proofs.v
theories/Properties_Nbc.v
theories/Py_Model.v
theories/Py_Proofs.v
theories/Properties_Py.v
theories/Lik_Spec.v
theories/Lik_Proofs.v
theories/Properties_Lik.v
theories/Traj_Model.v
theories/Traj_Spec.v
theories/Traj_Proofs.v
theories/Properties_Traj.v
theories/Entry_Model.v
theories/Persist_Model.v
theories/Properties_Entry.v
theories/Properties_Persist.v
theories/Inner_Model.v
theories/Inner_Proofs.v
theories/Properties_Inner.v
theories/Domain_Model.v
theories/Domain_Proofs.v
theories/Properties_Domain.v
theories/SgpGrad_Model.v
theories/SgpGrad_Proofs.v
theories/Properties_SgpGrad.v
theories/Mix_Model.v
theories/Mix_Proofs.v
theories/Properties_Mix.v
theories/Properties_Nan.v
theories/Single_Model.v
theories/Properties_Single.v
theories/Properties_MixGrad.v
theories/Seed_Model.v
theories/Seed_Proofs.v
theories/Properties_Seed.v
theories/LogEi_Const.v
theories/LogEi_Real.v
theories/LogEi_Proofs.v
theories/Properties_LogEi.v
theories/Scale_Model.v
theories/Properties_Scale.v
theories/Rng_Model.v
theories/Properties_Rng.v
theories/Expert_Model.v
theories/Properties_Expert.v
theories/EiF64_Model.v
theories/Ei_Float.v
theories/Ei_Float2.v
theories/Properties_EiF64.v
theories/MixDoe_Model.v
theories/MixDoe_Spec.v
theories/MixDoe_Proofs.v
theories/Properties_MixDoe.v
theories/DoeConc_Model.v
theories/DoeConc_Spec.v
theories/DoeConc_Proofs.v
theories/Properties_DoeConc.v
theories/CrossVal_Model.v
theories/CrossVal_Proofs.v
theories/Properties_CrossVal.v
theories/More_Spec.v
theories/More_Proofs.v
theories/Properties_More.v
theories/DoeSingle_Model.v
theories/DoeSingle_Proofs.v
theories/Properties_DoeSingle.v
theories/Config_Model.v
theories/Config_Spec.v
theories/Config_Proofs.v
theories/Properties_Config.v
theories/Params_Model.v
theories/Properties_Params.v
theories/Opt_Model.v
theories/Properties_Opt.v
theories/PySampling_Model.v
theories/Properties_PySampling.v
theories/PySparse_Model.v
theories/Properties_PySparse.v
