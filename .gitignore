rocq/.nia.cache
*.cache
