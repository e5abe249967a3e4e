.nra.cache
*.nra.cache
