-Q theories Verif
theories/Prelude.v
theories/SortModel.v
theories/SortSpec.v
theories/SortProofs.v
theories/CmpModel.v
theories/CmpProofs.v
theories/SortProps.v
theories/CmpProps.v
theories/PoolModel.v
theories/PoolProofs.v
theories/PoolProps.v
theories/RealBool.v
theories/RGModel.v
theories/RGSpec.v
theories/RGProofs.v
theories/RGProofs2.v
theories/RGProofs3.v
theories/RGProofs4.v
theories/RGProofs5.v
theories/RGProofs6.v
theories/RGProps.v
theories/ContourModel.v
theories/ContourProofs.v
theories/ContourProps.v
theories/FNModel.v
theories/FNDupProofs.v
theories/FNRModel.v
theories/FNDerivProofs.v
theories/FNSpec.v
theories/FNMatModel.v
theories/FNMatProofs.v
theories/FNProps.v
theories/FNMethProofs.v
theories/FNMatProps.v
theories/FNPhiModel.v
theories/FNPhiProps.v
theories/BVModel.v
theories/BVSpec.v
theories/BVProofs.v
theories/BVProofs2.v
theories/BVProofs3.v
theories/BVProofs4.v
theories/BVProofs5.v
theories/BVProps.v
theories/BVCacheModel.v
theories/BVCacheSpec.v
theories/BVCacheProps.v
theories/GSModel.v
theories/GSSpec.v
theories/GSProofs.v
theories/GSProps.v
theories/STModel.v
theories/STSpec.v
theories/STProofs.v
theories/STProofs2.v
theories/STProofs3.v
theories/STProofs4.v
theories/STProofs5.v
theories/STProofs6.v
theories/STProofs7.v
theories/STProofs8.v
theories/STProofs9.v
theories/STProofs10.v
theories/STProofs11.v
theories/STProofs12.v
theories/STProps.v
theories/PEPModel.v
theories/PEPSpec.v
theories/PEPProofs.v
theories/PEPProofs2.v
theories/PEPProofs3.v
theories/PEPProofs4.v
theories/PEPProofs5.v
theories/PEPProofs6.v
theories/PEPProps.v
theories/KrylovModel.v
theories/KrylovSpec.v
theories/KrylovProofs.v
theories/KrylovProps.v
theories/KrylovCases.v
theories/KSModel.v
theories/KSSpec.v
theories/KSProofs.v
theories/KSLoop.v
theories/KSProps.v
theories/KSCases.v
theories/KSRefuted.v
theories/SVDModel.v
theories/SVDSpec.v
theories/SVDProofs.v
theories/SVDProps.v
theories/SVDGProps.v
theories/SVDCases.v
theories/SVDHProps.v
theories/MFNModel.v
theories/MFNSpec.v
theories/MFNProofs.v
theories/MFNProofs2.v
theories/MFNProps.v
theories/EPSModel.v
theories/EPSSpec.v
theories/EPSProofs.v
theories/EPSProps.v
theories/EPSStructProps.v
theories/EPSHamiltProps.v
theories/EPSDimProps.v
theories/BOModel.v
theories/BOSpec.v
theories/BOProofs.v
theories/BOProps.v
theories/BOCases.v
theories/DPModel.v
theories/DPSpec.v
theories/DPProofs.v
theories/DPProps.v
theories/EKModel.v
theories/EKSpec.v
theories/EKProofs.v
theories/EKProps.v
theories/DimModel.v
theories/DimProps.v
theories/SVDReuseModel.v
theories/SVDReuseProps.v
theories/ReuseModel.v
theories/ReuseProps.v
